(** C117: containers are read back as they were written. *)
From Coq Require Import String Ascii List Arith Bool.
From Verif Require Import StateFileModel ParsModel OutputSpec ContainerModel ContainerSpec ContainerProofs.
Import ListNotations.
Local Open Scope nat_scope.

(** What is missing for the full claim: elements whose input operator takes also the delimiter which follows them, C117_mode_function_refuted. *)
(** A text is read into a container if, and only if, it is a spelling of the container: the delimiters are there, with any blanks before them, and the elements are read by their own operator.
    Nothing after the closing delimiter is read. *)
Theorem C117_read_partial : forall (A : Type) (get : text -> option (A * text)) d os v l r, all_delims visible (Container d os) ->
  (read get (Container d os) (mkIos l false false) = (v, mkIos r false false) <-> alike (Container d os) v /\ spells get v l r).
Proof. intros A get d os v l r. exact (read_iff get d os v l r). Qed.
Print Assumptions C117_read_partial.

(** If the text is not a spelling, then the stream signals this. *)
Theorem C117_failure_partial : forall (A : Type) (get : text -> option (A * text)) d os l, all_delims visible (Container d os) ->
  (forall v r, alike (Container d os) v -> ~ spells get v l r) -> failBit (snd (read get (Container d os) (mkIos l false false))) = true.
Proof. intros A get d os l. exact (read_fails get d os l). Qed.
Print Assumptions C117_failure_partial.

(** What was written is read back, whatever was in the container before, if this is so for the elements: *)
Theorem C117_round_trip_partial : forall (A : Type) (put : A -> text) (get : text -> option (A * text)) old v r,
  alike old v -> all_delims standard old -> all_delims standard v -> all_elements (reads_back put get) v -> (exists d vs, v = Container d vs) ->
  read get old (mkIos (write put v ++ r) false false) = (v, mkIos r false false).
Proof. intros A put get old v r. exact (written_read put get old v r). Qed.
Print Assumptions C117_round_trip_partial.

(** The case meets the hypotheses: pairs of numbers in a sequence. *)
Example C117_case :
  write modePut (exampleTree 1 2 3 4) = str "[(1, 2), (3, 4)]" /\ (forall r, read modeGet (exampleTree 0 0 0 0) (mkIos (write modePut (exampleTree 1 2 3 4) ++ r) false false) = (exampleTree 1 2 3 4, mkIos r false false)) /\
  read modeGet (exampleTree 0 0 0 0) (mkIos (str " [ ( 1,2 ) ,(3 , 4)] rest") false false) = (exampleTree 1 2 3 4, mkIos (str " rest") false false) /\
  failBit (snd (read modeGet (exampleTree 0 0 0 0) (mkIos (str "[(1, 2), (3; 4)]") false false))) = true.
Proof.
  split; [reflexivity|]. split; [|split; reflexivity]. intros r.
  apply C117_round_trip_partial; [apply example_alike|apply example_standard|apply example_standard|apply example_back; repeat constructor|exists sequenceDelims, [pairOf 1 2; pairOf 3 4]; reflexivity].
Qed.

(** A mode function is a pair of the kind of the function and the wave number. It can be written, but not read: the input operator of the kind takes the comma, too. *)
Theorem C117_mode_function_refuted : forall a n,
  write modePut (Container tupleDelims [Element Sin; Element (Number 3)]) = str "(Sin, 3)" /\
  failBit (snd (read modeGet (Container tupleDelims [Element a; Element (Number n)]) (mkIos (str "(Sin, 3)") false false))) = true.
Proof. intros a n. split; [reflexivity|exact (mode_function_lost a n)]. Qed.
Print Assumptions C117_mode_function_refuted.
