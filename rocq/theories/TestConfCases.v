From Coq Require Import List Arith Bool String Ascii Lia.
From Verif Require Import TestConfModel TestConfSpec TestConfProofs.
Import ListNotations.
Local Open Scope string_scope.

(** from Testing/physics/testdriver.conf:10-36, shortened *)
Definition physics : config :=
  [("ph_PTLA_Evolved", [("runmodes", "generic"); ("opts", "--gamma 1.2"); ("columns_compare_ptla", "2,3,4,5"); ("postprocess_local", "PTLA_postprocess")]);
   ("ph_PTLA_CPPQED", [("import", "ph_PTLA_Evolved"); ("runmodes", "master,ensemble"); ("epsilon_master_compare_ptla", "5e-14")]);
   ("ph_QbitMode_CPPQED", [("import", "ph_PTLA_CPPQED"); ("runmodes", "ensemble,master"); ("runmodes_compare_plm_ev_local", "master"); ("opts_mode", "--cutoff 30")])].
Definition physicsChain := ["ph_QbitMode_CPPQED"; "ph_PTLA_CPPQED"; "ph_PTLA_Evolved"].
Lemma physics_chain : chain physics "ph_QbitMode_CPPQED" physicsChain.
Proof.
  apply next with "ph_PTLA_CPPQED"; [reflexivity|right; left; reflexivity|]. apply next with "ph_PTLA_Evolved"; [reflexivity|left; reflexivity|]. constructor. reflexivity.
Qed.
Definition circular : config := [("a", [("import", "b")]); ("b", [("import", "a")])].
Lemma circular_no_chain n s l : (s = "a" \/ s = "b") -> chain circular s l -> List.length l <= n -> False.
Proof.
  revert s l. induction n as [|n IH]; intros s l H C L; [destruct C; cbn in L; lia|].
  destruct C as [s E|s s' l E I C].
  - destruct H as [-> | ->]; discriminate.
  - cbn in L. apply (IH s' l); [|exact C|lia]. destruct H as [-> | ->]; cbn in E; injection E as <-; auto.
Qed.
Lemma circular_error limit k : snd (getOption limit circular "a" k) = Error.
Proof. apply option_error. intros (l & C & L). exact (circular_no_chain limit "a" l (or_introl eq_refl) C L). Qed.
