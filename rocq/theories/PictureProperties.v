(** C97: a run with the master equation uses a picture in which it is possible. C98: enumerated parameters are read as they are written. *)
From Coq Require Import String Ascii List Arith Bool Reals Lra Lia.
From Verif Require Import StateFileModel ParsModel ParsSpec Star CReal TriModel ElementModel ModeModel FreeExactModel PictureModel PictureSpec PictureProofs.
Import ListNotations.
Local Open Scope nat_scope.

(** The picture returned is the one asked for last on the command line (interaction picture by default), except that for the master equation the interaction picture is replaced by the unitary one; the table holds the same *)
Theorem C97_choice : forall (A : Type) prefix val (t : @table (value A)) ws is m0,
  find (decl t) (str "picture") = None -> find (decl t) (str "evol") = Some (Plain methExtract) -> plainVal t (str "evol") = VMeth m0 ->
  (forall n e, find (decl t) n = Some (Plain e) -> readsWords e (val n)) ->
  val (str "picture") = (fun w => option_map VPic (named pictureNames w)) -> val (str "evol") = (fun w => option_map VMeth (named methodNames w)) ->
  (forall w, In w ws -> isWord w) -> commands prefix val (decl t ++ [(str "picture", Plain picExtract)]) ws is ->
  exists t' m q, lastValue (str "evol") is (VMeth m0) = VMeth m /\ lastValue (str "picture") is (VPic IP) = VPic q /\
    updateWithPicture prefix t ws = Chosen t' (pictureFor m q) /\ plainVal t' (str "picture") = VPic (pictureFor m q) /\ plainVal t' (str "evol") = VMeth m.
Proof. exact @choice. Qed.
Print Assumptions C97_choice.
(** The elements are accepted by the master equation exactly if their exact propagation is unitary *)
Theorem C97_accepted_iff_unitary : forall dim e, 2 <= dim -> (elementApplicable e = true <-> unitary dim (elementUpdateU dim e)).
Proof. exact element_unitary. Qed.
Print Assumptions C97_accepted_iff_unitary.
(** Every mode, and every qbit without phase noise, made in the picture chosen is accepted *)
Theorem C97_modes : forall p q sys, make p (pictureFor MASTER q) = Ok sys -> sysApplicable sys = true.
Proof. exact modes_accepted. Qed.
Print Assumptions C97_modes.
(** and the replacement was necessary if and only if there is loss *)
Theorem C97_necessary : forall p sys, make p IP = Ok sys -> (0 <= pNTh p)%R -> (sysApplicable sys = true <-> pKappa p = 0%R).
Proof. exact make_IP. Qed.
Print Assumptions C97_necessary.
(** As stated it does not hold for qbits with phase noise: if the Schroedinger picture is chosen, the interaction picture is used, and the system refused, at every nonzero loss. *)
Theorem C97_phase_noise_refuted : forall delta gamma gammaPar eta sys, gammaPar <> 0%R -> gamma <> 0%R ->
  qbitNoiseMake delta gamma gammaPar eta (pictureFor MASTER SCH) = Ok sys -> sysApplicable sys = false.
Proof. exact noise_sch_refused. Qed.
Print Assumptions C97_phase_noise_refuted.
Example C97_phase_noise_case : exists sys, qbitNoiseMake 1 1 1 k0 (pictureFor MASTER SCH) = Ok sys.
Proof. exact noise_made. Qed.
(** Missing: the Schroedinger picture with phase noise *)
Theorem C97_phase_noise_partial : forall delta gamma gammaPar eta q sys, gammaPar = 0%R \/ q <> SCH ->
  qbitNoiseMake delta gamma gammaPar eta (pictureFor MASTER q) = Ok sys -> sysApplicable sys = true.
Proof. exact noise_accepted. Qed.
Print Assumptions C97_phase_noise_partial.
(** the parameter evol and a number declared; different command lines *)
Example C97_case :
  let t := fst (ParsModel.add (mkTable [] (fun _ => VOther 0) (fun _ => false)) (str "evol") methExtract (VMeth SINGLE)) in
  map (fun ws => match updateWithPicture (str "--") t (map str ws) with Chosen t' q => Some (writePicture q) | _ => None end)
    [["--evol"; "master"]; ["--picture"; "IP"; "--evol"; "master"]; ["--evol"; "master"; "--picture"; "Sch"]; ["--evol"; "master"; "--evol"; "ensemble"]; []; ["--picture"; "ip"]]%string =
  [Some (str "UIP"); Some (str "UIP"); Some (str "Sch"); Some (str "IP"); Some (str "IP"); None].
Proof. vm_compute. reflexivity. Qed.

Theorem C98_picture : readsNames pictureNames readPicture writePicture.
Proof. exact picture_names. Qed.
Print Assumptions C98_picture.
Theorem C98_method : readsNames methodNames readMethod writeMethod.
Proof. exact method_names. Qed.
Print Assumptions C98_method.
Theorem C98_mode_function : readsNames modeFunNames readModeFun writeModeFun.
Proof. exact modeFun_names. Qed.
Print Assumptions C98_mode_function.
Example C98_case : readModeFun (str " Plus 3") MFT_SIN = (MFT_PLUS, Some (str " 3")) /\ readModeFun (str " plus 3") MFT_SIN = (MFT_SIN, None).
Proof. split; reflexivity. Qed.
