(** A reader for JSON (RFC 8259), for texts in ASCII, written without reference
    to the model. *)
From Coq Require Import String.
From Verif Require Import FileModel.
Open Scope Z_scope.

Inductive jvalue :=
| JNull | JTrue | JFalse
| JNumber (t : str)
| JString (s : str)
| JArray (l : list jvalue)
| JObject (l : list (str * jvalue)).

Definition white (c : ascii) : bool := let n := N_of_ascii c in ((n =? 32) || (n =? 9) || (n =? 10) || (n =? 13))%N.
Definition quote : ascii := ascii_of_N 34.
Definition backslash : ascii := ascii_of_N 92.

(** Numbers: an optional minus, digits without a leading zero, an optional
    fraction and an optional exponent. *)
Definition number_char (c : ascii) : bool := digit_c c || existsb (Ascii.eqb c) ["+"; "-"; "."; "e"; "E"]%char.
Definition is_digits (s : str) : bool := negb (Nat.eqb (List.length s) 0) && forallb digit_c s.
Definition is_exponent (s : str) : bool :=
  match s with
  | [] => true
  | c :: s' => (Ascii.eqb c "e" || Ascii.eqb c "E")
      && match s' with d :: s'' => if Ascii.eqb d "+" || Ascii.eqb d "-" then is_digits s'' else is_digits s' | [] => false end
  end.
Definition is_fraction (s : str) : bool :=
  match s with
  | c :: s' => if Ascii.eqb c "." then negb (Nat.eqb (List.length (take_while digit_c s')) 0) && is_exponent (drop_while digit_c s') else is_exponent s
  | [] => true
  end.
Definition is_number (s : str) : bool :=
  let t := match s with c :: s' => if Ascii.eqb c "-" then s' else s | [] => s end in
  forallb number_char s && match take_while digit_c t with [] => false | [_] => true | c :: _ => negb (Ascii.eqb c "0") end && is_fraction (drop_while digit_c t).

Definition hex_value (c : ascii) : option N :=
  let n := N_of_ascii c in
  if ((48 <=? n) && (n <=? 57))%N then Some (n - 48)%N else if ((97 <=? n) && (n <=? 102))%N then Some (n - 87)%N
  else if ((65 <=? n) && (n <=? 70))%N then Some (n - 55)%N else None.
Definition escaped (c : ascii) : option ascii :=
  if Ascii.eqb c quote then Some quote else if Ascii.eqb c backslash then Some backslash else if Ascii.eqb c "/" then Some "/"%char
  else if Ascii.eqb c "b" then Some (ascii_of_N 8) else if Ascii.eqb c "f" then Some (ascii_of_N 12) else if Ascii.eqb c "n" then Some (ascii_of_N 10)
  else if Ascii.eqb c "r" then Some (ascii_of_N 13) else if Ascii.eqb c "t" then Some (ascii_of_N 9) else None.
(** The rest of a string after its opening quote. *)
Fixpoint read_string (s : str) : option (str * str) :=
  match s with
  | [] => None
  | c :: s1 =>
      if Ascii.eqb c quote then Some ([], s1)
      else if Ascii.eqb c backslash then
        match s1 with
        | [] => None
        | u :: s2 =>
            if Ascii.eqb u "u" then
              match s2 with
              | a :: b :: d :: e :: s3 =>
                  match hex_value a, hex_value b, hex_value d, hex_value e, read_string s3 with
                  | Some na, Some nb, Some nd, Some ne, Some (r, s4) =>
                      let n := (na * 4096 + nb * 256 + nd * 16 + ne)%N in if (n <? 128)%N then Some (ascii_of_N n :: r, s4) else None
                  | _, _, _, _, _ => None
                  end
              | _ => None
              end
            else match escaped u, read_string s2 with Some x, Some (r, s3) => Some (x :: r, s3) | _, _ => None end
        end
      else if (N_of_ascii c <? 32)%N then None
      else match read_string s1 with Some (r, s2) => Some (c :: r, s2) | None => None end
  end.

(** A value, the rest of an array after its first bracket, the rest of an object
    after its first brace. *)
Fixpoint read_value (fuel : nat) (s : str) : option (jvalue * str) :=
  match fuel with
  | O => None
  | S f =>
      match drop_while white s with
      | [] => None
      | c :: s1 =>
          if Ascii.eqb c "[" then
            match drop_while white s1 with
            | d :: s2 => if Ascii.eqb d "]" then Some (JArray [], s2) else match read_items f s1 with Some (l, s3) => Some (JArray l, s3) | None => None end
            | [] => None
            end
          else if Ascii.eqb c "{" then
            match drop_while white s1 with
            | d :: s2 => if Ascii.eqb d "}" then Some (JObject [], s2) else match read_members f s1 with Some (l, s3) => Some (JObject l, s3) | None => None end
            | [] => None
            end
          else if Ascii.eqb c quote then match read_string s1 with Some (t, s2) => Some (JString t, s2) | None => None end
          else if str_eqb (firstn 4 (c :: s1)) (lit "null") then Some (JNull, skipn 4 (c :: s1))
          else if str_eqb (firstn 4 (c :: s1)) (lit "true") then Some (JTrue, skipn 4 (c :: s1))
          else if str_eqb (firstn 5 (c :: s1)) (lit "false") then Some (JFalse, skipn 5 (c :: s1))
          else let t := take_while number_char (c :: s1) in if is_number t then Some (JNumber t, drop_while number_char (c :: s1)) else None
      end
  end
with read_items (fuel : nat) (s : str) : option (list jvalue * str) :=
  match fuel with
  | O => None
  | S f =>
      match read_value f s with
      | None => None
      | Some (v, s1) =>
          match drop_while white s1 with
          | [] => None
          | c :: s2 => if Ascii.eqb c "]" then Some ([v], s2)
                       else if Ascii.eqb c "," then match read_items f s2 with Some (l, s3) => Some (v :: l, s3) | None => None end else None
          end
      end
  end
with read_members (fuel : nat) (s : str) : option (list (str * jvalue) * str) :=
  match fuel with
  | O => None
  | S f =>
      match drop_while white s with
      | [] => None
      | q :: s0 =>
          if Ascii.eqb q quote then
            match read_string s0 with
            | None => None
            | Some (k, s1) =>
                match drop_while white s1 with
                | [] => None
                | c :: s2 =>
                    if Ascii.eqb c ":" then
                      match read_value f s2 with
                      | None => None
                      | Some (v, s3) =>
                          match drop_while white s3 with
                          | [] => None
                          | d :: s4 => if Ascii.eqb d "}" then Some ([(k, v)], s4)
                                       else if Ascii.eqb d "," then match read_members f s4 with Some (l, s5) => Some ((k, v) :: l, s5) | None => None end else None
                          end
                      end
                    else None
                end
            end
          else None
      end
  end.
(** A whole text: one value and white space. *)
Definition read_json (s : str) : option jvalue :=
  match read_value (20 + 2 * List.length s) s with
  | Some (v, r) => match drop_while white r with [] => Some v | _ => None end
  | None => None
  end.
(** The value under a key of an object. *)
Fixpoint under (k : str) (l : list (str * jvalue)) : option jvalue :=
  match l with [] => None | (k', v) :: l' => if str_eqb k k' then Some v else under k l' end.
Definition member (k : string) (v : jvalue) : option jvalue := match v with JObject l => under (lit k) l | _ => None end.
Definition ascii_text (s : str) : Prop := Forall (fun c => (N_of_ascii c < 128)%N) s.
