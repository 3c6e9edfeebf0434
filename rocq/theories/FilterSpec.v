(** Vocabulary for the statements about modal filters. *)
From Verif Require Export StepSpec.
Open Scope R_scope.

(** The factor a filter has for the mode number [k]: the filter at |f| 2 / pi
    for the frequency f of the mode. *)
Definition gain (g : R -> R) (ft : transform) (k : nat) : R := g (sqrt (norm_sq (tfreq ft k)) * 2 / PI).

(** A field on [n] nodes after every mode has been multiplied by its factor. *)
Definition filtered (g : R -> R) (ft : transform) (n : nat) (d : data) : data :=
  to_real ft (map (fun k => Cmul (RtoC (gain g ft k)) (nth k (fft ft d) C0)) (seq 0 n)).
