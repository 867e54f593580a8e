(** C99: every line of the output splits at white space into the columns. *)
From Coq Require Import String Ascii List Arith ZArith Bool Lia.
From Verif Require Import StateFileModel ParsModel OutputModel OutputSpec OutputProofs.
Import ListNotations.
Local Open Scope nat_scope.

(** the time and the step with the precision required, at least six digits; the others with the precision required *)
Theorem C99_columns : forall p t dt averages measures, isDouble (Nat.max 6 p) t -> nonNegative t -> isDouble (Nat.max 6 p) dt -> nonNegative dt ->
  (forall g v, In g averages -> In v g -> isDouble p v) -> (forall v, In v measures -> isDouble p v) ->
  words (streamLine p t dt averages measures) = writeG (Nat.max 6 p) t :: writeG (Nat.max 6 p) dt :: map (writeG p) (concat averages ++ measures).
Proof. exact line_words. Qed.
Print Assumptions C99_columns.
Theorem C99_columns_simulated : forall p t dt xs, isDouble (Nat.max 6 p) t -> nonNegative t -> isDouble (Nat.max 6 p) dt -> nonNegative dt -> (forall v, In v xs -> isDouble p v) ->
  words (streamSimulated p t dt xs) = writeG (Nat.max 6 p) t :: writeG (Nat.max 6 p) dt :: map (writeG p) xs.
Proof. exact simulated_words. Qed.
Print Assumptions C99_columns_simulated.
(** the width cannot be less: the longest numbers leave a single blank *)
Theorem C99_least_width : forall p, 1 < p -> exists v, isDouble p v /\ words (bound (mkFD p (widthAny p - 1)) v ++ bound (formAny p) v) = [writeG p v ++ writeG p v].
Proof. exact width_least. Qed.
Print Assumptions C99_least_width.
(** time 0.25, step 1e-05; -1.23e-300 and 100 displayed by one subsystem, infinity by another one, precision 3 *)
Example C99_case :
  let t := Finite false [2; 5; 0; 0; 0; 0] (-1) in let dt := Finite false [1; 0; 0; 0; 0; 0] (-5) in
  let a := Finite true [1; 2; 3] (-300) in let b := Finite false [1; 0; 0] 2 in
  string_of_list_ascii (streamLine 3 t dt [[a; b]; [Infinite false]] []) =
    ("0.25         1e-05        " ++ String (ascii_of_nat 9) "-1.23e-300 100        " ++ String (ascii_of_nat 9) "inf        " ++ String (ascii_of_nat 10) "")%string /\
  words (streamLine 3 t dt [[a; b]; [Infinite false]] []) = map str ["0.25"; "1e-05"; "-1.23e-300"; "100"; "inf"]%string.
Proof. split; vm_compute; reflexivity. Qed.
