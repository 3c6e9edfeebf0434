(** A reader for XML elements (without comments, processing instructions and
    CDATA), for texts in ASCII, written without reference to the model. *)
From Coq Require Import String.
From Verif Require Import FileModel JsonSpec.
Open Scope Z_scope.

Inductive node := Elem (name : str) (attrs : list (str * str)) (content : list node) | Text (t : str).

Definition tag_char (c : ascii) : bool := letter_c c || digit_c c || existsb (Ascii.eqb c) ["_"; ":"; "."; "-"]%char.
Fixpoint hex_number (acc : N) (s : str) : option N :=
  match s with [] => Some acc | c :: s' => match hex_value c with Some d => hex_number (16 * acc + d) s' | None => None end end.
Definition char_ref (n : N) : option ascii := if (n <? 128)%N then Some (ascii_of_N n) else None.
(** What a reference "&name;" stands for. *)
Definition reference (s : str) : option ascii :=
  if str_eqb s (lit "amp") then Some "&"%char else if str_eqb s (lit "lt") then Some "<"%char else if str_eqb s (lit "gt") then Some ">"%char
  else if str_eqb s (lit "quot") then Some quote else if str_eqb s (lit "apos") then Some "'"%char
  else match s with
       | h :: x :: s' => if Ascii.eqb h "#" then
                           if Ascii.eqb x "x" then match hex_number 0 s' with Some n => char_ref n | None => None end
                           else if forallb digit_c (x :: s') then char_ref (Z.to_N (digits_val 0 (x :: s'))) else None
                         else None
       | _ => None
       end.
(** Characters up to [stop]; [ref] holds the letters of a reference that was
    begun.  In attributes white space counts as a blank. *)
Fixpoint read_chars (attr : bool) (stop : ascii) (ref : option str) (s : str) : option (str * str) :=
  match s with
  | [] => None
  | c :: s' =>
      match ref with
      | Some acc =>
          if Ascii.eqb c ";" then match reference acc, read_chars attr stop None s' with Some x, Some (r, rest) => Some (x :: r, rest) | _, _ => None end
          else read_chars attr stop (Some (acc ++ [c])) s'
      | None =>
          if Ascii.eqb c stop then Some ([], s)
          else if Ascii.eqb c "&" then read_chars attr stop (Some []) s'
          else match read_chars attr stop None s' with Some (r, rest) => Some ((if attr && white c then " "%char else c) :: r, rest) | None => None end
      end
  end.
(** The attributes up to the end of the start tag; the flag tells whether the
    element is empty ("/>"). *)
Fixpoint read_attrs (fuel : nat) (s : str) : option (list (str * str) * bool * str) :=
  match fuel with
  | O => None
  | S f =>
      match drop_while white s with
      | [] => None
      | c :: s1 =>
          if Ascii.eqb c ">" then Some ([], false, s1)
          else if Ascii.eqb c "/" then match s1 with d :: s2 => if Ascii.eqb d ">" then Some ([], true, s2) else None | [] => None end
          else
            let k := take_while tag_char (c :: s1) in
            match k, drop_while white (drop_while tag_char (c :: s1)) with
            | _ :: _, e :: s2 =>
                if Ascii.eqb e "=" then
                  match drop_while white s2 with
                  | q :: s3 =>
                      if Ascii.eqb q quote || Ascii.eqb q "'" then
                        match read_chars true q None s3 with
                        | Some (v, _ :: s4) => match read_attrs f s4 with Some (l, b, s5) => Some ((k, v) :: l, b, s5) | None => None end
                        | _ => None
                        end
                      else None
                  | [] => None
                  end
                else None
            | _, _ => None
            end
      end
  end.
(** An element after its first "<"; the content of an element up to "</". *)
Fixpoint read_elem (fuel : nat) (s : str) : option (node * str) :=
  match fuel with
  | O => None
  | S f =>
      match take_while tag_char s with
      | [] => None
      | n0 :: n =>
          match read_attrs f (drop_while tag_char s) with
          | None => None
          | Some (a, true, s1) => Some (Elem (n0 :: n) a [], s1)
          | Some (a, false, s1) =>
              match read_content f s1 with
              | Some (l, s2) =>
                  let s3 := skipn 2 s2 in
                  if str_eqb (take_while tag_char s3) (n0 :: n) then
                    match drop_while white (drop_while tag_char s3) with
                    | c :: s4 => if Ascii.eqb c ">" then Some (Elem (n0 :: n) a l, s4) else None
                    | [] => None
                    end
                  else None
              | None => None
              end
          end
      end
  end
with read_content (fuel : nat) (s : str) : option (list node * str) :=
  match fuel with
  | O => None
  | S f =>
      match s with
      | [] => None
      | c :: s1 =>
          if Ascii.eqb c "<" then
            match s1 with
            | [] => None
            | d :: _ =>
                if Ascii.eqb d "/" then Some ([], s)
                else match read_elem f s1 with
                     | Some (e, s2) => match read_content f s2 with Some (l, s3) => Some (e :: l, s3) | None => None end
                     | None => None
                     end
            end
          else match read_chars false "<" None s with
               | Some (t, s2) => match read_content f s2 with Some (l, s3) => Some (Text t :: l, s3) | None => None end
               | None => None
               end
      end
  end.
(** A whole text: one element and white space. *)
Definition read_xml (s : str) : option node :=
  match drop_while white s with
  | c :: s1 =>
      if Ascii.eqb c "<" then
        match read_elem (List.length s) s1 with
        | Some (e, r) => match drop_while white r with [] => Some e | _ => None end
        | None => None
        end
      else None
  | [] => None
  end.

(** Questions to a document. *)
Definition elem_name (e : node) : str := match e with Elem n _ _ => n | Text _ => [] end.
Definition is_elem (k : str) (e : node) : bool := match e with Elem n _ _ => str_eqb n k | Text _ => false end.
Definition children (k : string) (e : node) : list node := match e with Elem _ _ l => filter (is_elem (lit k)) l | Text _ => [] end.
Fixpoint find_attr (k : str) (l : list (str * str)) : option str := match l with [] => None | (k', v) :: l' => if str_eqb k' k then Some v else find_attr k l' end.
Definition attr (k : string) (e : node) : option str := match e with Elem _ a _ => find_attr (lit k) a | Text _ => None end.
Definition text_of (e : node) : str := match e with Elem _ _ l => flat_map (fun x => match x with Text t => t | Elem _ _ _ => [] end) l | Text t => t end.
(** Texts of characters that XML allows, in ASCII. *)
Definition xml_ok (c : ascii) : bool := let n := N_of_ascii c in (((32 <=? n) && (n <? 128)) || (n =? 9) || (n =? 10) || (n =? 13))%N.
Definition xml_text (s : str) : Prop := forallb xml_ok s = true.
