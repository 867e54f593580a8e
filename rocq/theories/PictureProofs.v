From Coq Require Import String Ascii List Arith Bool Reals Lra Lia.
From Verif Require Import StateFileModel ParsModel ParsSpec ParsProofs Star CReal TriModel ElementModel ModeModel ModeProofs FreeExactModel FreeExactProofs PictureModel PictureSpec.
Import ListNotations.
Local Open Scope nat_scope.

Lemma named_textEq {T} (names : list (text * T)) w : named names w = match names with [] => None | (n, v) :: names' => if textEq w n then Some v else named names' w end.
Proof.
  destruct names as [|[n v] names]; [reflexivity|]. cbn [named]. destruct (list_eq_dec ascii_dec n w) as [->|N].
  - now rewrite textEq_refl.
  - rewrite textEq_neq by congruence. reflexivity.
Qed.
Lemma wr_word (q : string) : (forall c, In c (str q) -> isSpace c = false) -> str q <> [] -> isWord (str q).
Proof. intros H N. now split. Qed.
Ltac isw := split; [discriminate|]; intros c I; cbn in I; repeat destruct I as [<-|I]; try contradiction; reflexivity.

Lemma picture_names : readsNames pictureNames readPicture writePicture.
Proof.
  assert (R : forall w l v, isWord w -> wordEnd l -> readPicture (" "%char :: w ++ l) v = match named pictureNames w with Some u => (u, Some l) | None => (v, None) end).
  { intros w l v W E. unfold readPicture. rewrite (extract_word w l W E). unfold pictureNames. repeat (rewrite named_textEq; cbn iota beta).
    destruct (textEq w (str "IP")); [reflexivity|]. destruct (textEq w (str "UIP")); [reflexivity|]. destruct (textEq w (str "Sch")); reflexivity. }
  split; [exact R|split].
  - intros v. reflexivity.
  - intros v l u E. assert (W : isWord (writePicture v)) by (destruct v; isw). rewrite (R _ l u W E). destruct v; reflexivity.
Qed.
Lemma method_names : readsNames methodNames readMethod writeMethod.
Proof.
  assert (R : forall w l v, isWord w -> wordEnd l -> readMethod (" "%char :: w ++ l) v = match named methodNames w with Some u => (u, Some l) | None => (v, None) end).
  { intros w l v W E. unfold readMethod. rewrite (extract_word w l W E). unfold methodNames. repeat (rewrite named_textEq; cbn iota beta).
    destruct (textEq w (str "single")); [reflexivity|]. destruct (textEq w (str "ensemble")); [reflexivity|]. destruct (textEq w (str "master")); reflexivity. }
  split; [exact R|split].
  - intros v. reflexivity.
  - intros v l u E. assert (W : isWord (writeMethod v)) by (destruct v; isw). rewrite (R _ l u W E). destruct v; reflexivity.
Qed.
Lemma modeFun_names : readsNames modeFunNames readModeFun writeModeFun.
Proof.
  assert (R : forall w l v, isWord w -> wordEnd l -> readModeFun (" "%char :: w ++ l) v = match named modeFunNames w with Some u => (u, Some l) | None => (v, None) end).
  { intros w l v W E. unfold readModeFun. rewrite (extract_word w l W E). unfold modeFunNames. repeat (rewrite named_textEq; cbn iota beta).
    destruct (textEq w (str "Sin")); [reflexivity|]. destruct (textEq w (str "Cos")); [reflexivity|]. destruct (textEq w (str "Plus")); [reflexivity|]. destruct (textEq w (str "Minus")); reflexivity. }
  split; [exact R|split].
  - intros v. reflexivity.
  - intros v l u E. assert (W : isWord (writeModeFun v)) by (destruct v; isw). rewrite (R _ l u W E). destruct v; reflexivity.
Qed.

Section Choice.
Context {A : Type}.
Notation value := (value A).
Lemma pic_reads : readsWords (@picExtract A) (fun w => option_map VPic (named pictureNames w)).
Proof.
  split; [reflexivity|]. intros w l W E. unfold picExtract. rewrite (proj1 picture_names w l IP W E).
  destruct (named pictureNames w); cbn [option_map]; auto.
Qed.
Lemma meth_reads : readsWords (@methExtract A) (fun w => option_map VMeth (named methodNames w)).
Proof.
  split; [reflexivity|]. intros w l W E. unfold methExtract. rewrite (proj1 method_names w l SINGLE W E).
  destruct (named methodNames w); cbn [option_map]; auto.
Qed.

Lemma lastValue_none n : forall (is : list (@item value)) d, (forall v, ~ In (SetTo n v) is) -> lastValue n is d = d.
Proof.
  induction is as [|[m v|m|m] is IH]; intros d H; cbn [lastValue]; auto.
  - rewrite IH by (intros u I; apply (H u); now right). destruct (list_eq_dec ascii_dec m n) as [->|]; auto. exfalso. apply (H v). now left.
  - apply IH. intros u I. apply (H u). now right.
  - apply IH. intros u I. apply (H u). now right.
Qed.
Lemma lastValue_some n v is2 : (forall v', ~ In (SetTo n v') is2) -> forall (is1 : list (@item value)) d, lastValue n (is1 ++ SetTo n v :: is2) d = v.
Proof.
  intros H. induction is1 as [|[m u|m|m] is IH]; intros d; cbn [app lastValue]; auto.
  destruct (list_eq_dec ascii_dec n n); [|congruence]. now apply lastValue_none.
Qed.
Lemma last_split n : forall is : list (@item value), (forall v, ~ In (SetTo n v) is) \/ exists is1 v is2, is = is1 ++ SetTo n v :: is2 /\ forall v', ~ In (SetTo n v') is2.
Proof.
  induction is as [|i is IH]; [left; intros v []|]. destruct IH as [H|(is1 & v & is2 & -> & H)].
  - destruct i as [m u|m|m]; [destruct (list_eq_dec ascii_dec m n) as [->|N]|..].
    + right. exists [], u, is. split; [reflexivity|exact H].
    + left. intros v [I|I]; [congruence|now apply (H v)].
    + left. intros v [I|I]; [discriminate|now apply (H v)].
    + left. intros v [I|I]; [discriminate|now apply (H v)].
  - right. exists (i :: is1), v, is2. split; [reflexivity|exact H].
Qed.
Lemma last_value (t t' : @table value) is n : lastWins t t' is -> plainVal t' n = lastValue n is (plainVal t n).
Proof.
  intros (_ & L & K & _). destruct (last_split n is) as [H|(is1 & v & is2 & -> & H)].
  - rewrite lastValue_none by exact H. now apply K.
  - rewrite lastValue_some by exact H. now apply (L n is1 v is2).
Qed.
(** values assigned are those of words *)
Lemma commands_val prefix val (d : list (text * @kind value)) ws is : commands prefix val d ws is -> forall n v, In (SetTo n v) is -> exists w, val n w = Some v.
Proof.
  induction 1; intros m u I; cbn in I.
  - contradiction.
  - destruct I as [I|I]; [|now apply IHcommands]. injection I as <- <-. eauto.
  - destruct I as [I|I]; [discriminate|now apply IHcommands].
  - destruct I as [I|I]; [discriminate|now apply IHcommands].
Qed.
Lemma last_typed prefix val (d : list (text * @kind value)) ws is n (P : value -> Prop) dflt : commands prefix val d ws is -> (forall w v, val n w = Some v -> P v) -> P dflt -> P (lastValue n is dflt).
Proof.
  intros C H D. destruct (last_split n is) as [N|(is1 & v & is2 & -> & N)].
  - now rewrite lastValue_none.
  - rewrite lastValue_some by exact N. destruct (commands_val _ _ _ _ _ C n v) as [w E]; [apply in_or_app; right; now left|]. now apply (H w).
Qed.

Lemma choice prefix val (t : @table value) ws is m0 :
  find (decl t) (str "picture") = None -> find (decl t) (str "evol") = Some (Plain methExtract) -> plainVal t (str "evol") = VMeth m0 ->
  (forall n e, find (decl t) n = Some (Plain e) -> readsWords e (val n)) ->
  val (str "picture") = (fun w => option_map VPic (named pictureNames w)) -> val (str "evol") = (fun w => option_map VMeth (named methodNames w)) ->
  (forall w, In w ws -> isWord w) -> commands prefix val (decl t ++ [(str "picture", Plain picExtract)]) ws is ->
  exists t' m q, lastValue (str "evol") is (VMeth m0) = VMeth m /\ lastValue (str "picture") is (VPic IP) = VPic q /\
    updateWithPicture prefix t ws = Chosen t' (pictureFor m q) /\ plainVal t' (str "picture") = VPic (pictureFor m q) /\ plainVal t' (str "evol") = VMeth m.
Proof.
  intros NP FE PE RW VP VM W C. unfold updateWithPicture.
  destruct (add_new t (str "picture") picExtract (VPic IP) NP) as (t1 & E1 & F1 & P1 & S1). rewrite E1.
  assert (D1 : decl t1 = decl t ++ [(str "picture", Plain picExtract)]).
  { unfold ParsModel.add in E1. rewrite NP in E1. injection E1 as <-. reflexivity. }
  assert (RW1 : forall n e, find (decl t1) n = Some (Plain e) -> readsWords e (val n)).
  { intros n e F. rewrite D1, find_last in F by exact NP. destruct (textEq (str "picture") n) eqn:T.
    - apply textEq_spec in T. subst n. injection F as <-. rewrite VP. exact pic_reads.
    - now apply RW. }
  rewrite <- D1 in C. destruct (update_accepts prefix val t1 ws is RW1 W C) as (t2 & -> & L).
  destruct (S1 (str "evol")) as (FE1 & PE1 & _); [intros [I|[]]; discriminate I|].
  pose proof (last_value _ _ _ (str "picture") L) as LP. pose proof (last_value _ _ _ (str "evol") L) as LE.
  rewrite P1 in LP. rewrite PE1, PE in LE.
  assert (TP : exists q, lastValue (str "picture") is (VPic IP) = VPic q).
  { apply (last_typed _ _ _ _ _ (str "picture") (fun v => exists q, v = VPic q) _ C); [|eauto]. intros w v. rewrite VP. destruct (named pictureNames w); cbn; [intros [= <-]; eauto|discriminate]. }
  assert (TM : exists m, lastValue (str "evol") is (VMeth m0) = VMeth m).
  { apply (last_typed _ _ _ _ _ (str "evol") (fun v => exists m, v = VMeth m) _ C); [|eauto]. intros w v. rewrite VM. destruct (named methodNames w); cbn; [intros [= <-]; eauto|discriminate]. }
  destruct TP as [q EQ], TM as [m EM]. rewrite EQ in LP. rewrite EM in LE. rewrite LP.
  rewrite (proj1 L), FE1, FE, LE.
  destruct m, q; (eexists _, _, _; split; [exact EM|]; split; [exact EQ|]; split; [reflexivity|]; split; [first [exact LP|reflexivity]|exact LE]).
Qed.
End Choice.

(** ** Acceptance *)
Lemma csq_cexp z : csq (cexp z) = exp (2 * cre z).
Proof.
  unfold csq, cexp, cre. cbn [fst snd]. replace (2 * fst z)%R with (fst z + fst z)%R by ring. rewrite exp_plus.
  transitivity (exp (fst z) * exp (fst z) * (Rsqr (sin (snd z)) + Rsqr (cos (snd z))))%R; [unfold Rsqr; ring|]. rewrite sin2_cos2. ring.
Qed.
Lemma exp_one x : exp x = 1%R -> x = 0%R.
Proof. intros H. apply exp_inv. now rewrite exp_0. Qed.
Lemma Reqb_iff x : Reqb x 0 = true <-> x = 0%R.
Proof. unfold Reqb. destruct (Req_EM_T x 0); split; auto; discriminate. Qed.
Lemma mode_unitary dim zI : 2 <= dim -> (cre zI = 0%R <-> unitary dim (modeUpdateU dim zI)).
Proof.
  intros D. unfold unitary, modeUpdateU. split.
  - intros Z t mem i Hi. apply Nat.ltb_lt in Hi. rewrite Hi, csq_cexp. unfold cre in *. cbn. rewrite Z. rewrite <- exp_0. f_equal. ring.
  - intros H. specialize (H 1%R (fun _ => k0) 1 ltac:(lia)). replace (1 <? dim) with true in H by (symmetry; apply Nat.ltb_lt; lia).
    rewrite csq_cexp in H. apply exp_one in H. unfold cre in *. cbn in H. lra.
Qed.
Lemma element_unitary dim e : 2 <= dim -> (elementApplicable e = true <-> unitary dim (elementUpdateU dim e)).
Proof.
  intros D. destruct e as [zI|gamma omega|omrec k]; cbn [elementApplicable elementUpdateU].
  - rewrite Reqb_iff. now apply mode_unitary.
  - rewrite Reqb_iff. unfold unitary. split.
    + intros -> t mem i Hi. rewrite spinUpdateU_ok by exact Hi. rewrite csq_cexp. rewrite <- exp_0. f_equal. unfold cre. cbn. ring.
    + intros H. specialize (H 1%R (fun _ => k0) 1 ltac:(lia)). rewrite spinUpdateU_ok in H by lia. rewrite csq_cexp in H. apply exp_one in H. unfold cre in H. cbn in H. lra.
  - split; [intros _|reflexivity]. intros t mem i Hi. unfold particleUpdateU. apply Nat.ltb_lt in Hi. rewrite Hi, csq_cexp. rewrite <- exp_0. f_equal. unfold cre, fExpFill. cbn. ring.
Qed.
Lemma sys_unitary sys : 2 <= msDim sys -> (sysApplicable sys = true <-> propagates_unitarily sys).
Proof.
  intros D. unfold sysApplicable, propagates_unitarily. destruct (msExact sys) as [zI|].
  - rewrite element_unitary by exact D. split; [intros H z [= <-]; exact H|intros H; now apply H].
  - split; [intros _ z H; discriminate|reflexivity].
Qed.

Lemma bind_ok {X Y} (o : TriModel.outcome X) (f : X -> TriModel.outcome Y) y : bind o f = Ok y -> exists x, o = Ok x /\ f x = Ok y.
Proof. destruct o; cbn; intros H; try discriminate; eauto. Qed.
Lemma withIP_exact zSch zI eta p ls sys : withIP zSch zI eta p ls = Ok sys -> msExact sys = Some zI /\ msDim sys = pCutoff p.
Proof. unfold withIP. intros H. apply bind_ok in H. destruct H as (hs & _ & H). injection H as <-. auto. Qed.
Lemma withSch_exact z eta p ls sys : withSch z eta p ls = Ok sys -> msExact sys = None /\ msDim sys = pCutoff p.
Proof. unfold withSch. intros H. apply bind_ok in H. destruct H as (hs & _ & H). injection H as <-. auto. Qed.
Ltac exactOf H :=
  first [apply withIP_exact in H | apply withSch_exact in H | (injection H as <-; cbn [msExact msDim])].
Lemma app_None sys d : msExact sys = None /\ msDim sys = d -> sysApplicable sys = true.
Proof. unfold sysApplicable. intros [-> _]. reflexivity. Qed.
Lemma app_Some sys z d : msExact sys = Some z /\ msDim sys = d -> sysApplicable sys = Reqb (cre z) 0.
Proof. unfold sysApplicable. intros [-> _]. reflexivity. Qed.
Lemma Reqb_00 : Reqb 0 0 = true. Proof. now apply Reqb_iff. Qed.

Lemma make_applicable p qmp sys : make p qmp = Ok sys -> qmp <> IP -> sysApplicable sys = true.
Proof.
  intros H N. unfold make, makePumped, makeLossy, makePlain, switch in H.
  destruct qmp; [congruence|..]; repeat match type of H with context [if ?b then _ else _] => destruct b end;
  unfold cMode, cModeSch, cPumpedMode, cPumpedModeSch, cLossyModeUIP, cLossyModeSch, cPumpedLossyModeUIP, cPumpedLossyModeSch in H;
  first [apply withSch_exact in H; now apply app_None in H
        |apply withIP_exact in H; apply app_Some in H; rewrite H; apply Reqb_00
        |injection H as <-; apply Reqb_00].
Qed.
Lemma decay_zero temp p : (0 <= pNTh p)%R -> decayRate temp p = 0%R <-> pKappa p = 0%R.
Proof.
  intros N. unfold decayRate. destruct temp; [|tauto]. split; [|intros ->; ring]. intros H. apply Rmult_integral in H. destruct H; [auto|lra].
Qed.
Lemma make_IP p sys : make p IP = Ok sys -> (0 <= pNTh p)%R -> (sysApplicable sys = true <-> pKappa p = 0%R).
Proof.
  intros H N. unfold make, makePumped, makeLossy, makePlain, switch in H.
  destruct (Reqb (pKappa p) 0) eqn:K.
  - apply Reqb_iff in K. split; [auto|intros _]. destruct (negb (isNonZero (pEta p))); unfold cMode, cPumpedMode in H;
      first [apply withIP_exact in H; apply app_Some in H; rewrite H; apply Reqb_00|injection H as <-; apply Reqb_00].
  - destruct (negb (isNonZero (pEta p))); unfold cLossyMode, cPumpedLossyMode in H.
    + injection H as <-. unfold sysApplicable. cbn [msExact elementApplicable cre fst]. rewrite Reqb_iff. now apply decay_zero.
    + apply withIP_exact in H. apply app_Some in H. rewrite H. cbn [cre fst]. rewrite Reqb_iff. now apply decay_zero.
Qed.
Lemma noise_applicable delta gamma gammaPar eta qmp sys : qbitNoiseMake delta gamma gammaPar eta qmp = Ok sys -> gammaPar = 0%R /\ qmp <> IP \/ qmp = UIP -> sysApplicable sys = true.
Proof.
  unfold qbitNoiseMake. intros H C. destruct (Reqb gammaPar 0) eqn:G.
  - unfold qbitMake in H. apply (make_applicable _ _ _ H). destruct C as [[_ C]| ->]; [exact C|discriminate].
  - destruct C as [[C _]| ->]; [apply Reqb_iff in C; congruence|]. destruct (isNonZero eta); apply withIP_exact in H; apply app_Some in H; rewrite H; apply Reqb_00.
Qed.
Lemma noise_sch_refused delta gamma gammaPar eta sys : gammaPar <> 0%R -> gamma <> 0%R -> qbitNoiseMake delta gamma gammaPar eta SCH = Ok sys -> sysApplicable sys = false.
Proof.
  unfold qbitNoiseMake. intros G N H. replace (Reqb gammaPar 0) with false in H by (unfold Reqb; destruct (Req_EM_T gammaPar 0); [contradiction|reflexivity]).
  assert (Z : Reqb gamma 0 = false) by (unfold Reqb; destruct (Req_EM_T gamma 0); [contradiction|reflexivity]).
  destruct (isNonZero eta).
  - apply withIP_exact in H. apply app_Some in H. rewrite H. exact Z.
  - injection H as <-. exact Z.
Qed.
Lemma modes_accepted : forall p q sys, make p (pictureFor MASTER q) = Ok sys -> sysApplicable sys = true.
Proof. intros p q sys H. apply (make_applicable p _ sys H). destruct q; discriminate. Qed.
Lemma noise_accepted : forall delta gamma gammaPar eta q sys, gammaPar = 0%R \/ q <> SCH ->
  qbitNoiseMake delta gamma gammaPar eta (pictureFor MASTER q) = Ok sys -> sysApplicable sys = true.
Proof.
  intros delta gamma gammaPar eta q sys C H. apply (noise_applicable _ _ _ _ _ _ H). destruct q; cbn [pictureFor]; auto. left. destruct C as [C|C]; [split; [exact C|discriminate]|congruence].
Qed.
Lemma noise_made : exists sys, qbitNoiseMake 1 1 1 k0 (pictureFor MASTER SCH) = Ok sys.
Proof.
  unfold qbitNoiseMake. replace (Reqb 1 0) with false by (unfold Reqb; destruct (Req_EM_T 1 0); [lra|reflexivity]). cbn [pictureFor].
  replace (isNonZero (k0 : CR)) with false; [eexists; reflexivity|].
  symmetry. unfold isNonZero, CReqb. cbn. unfold Reqb. destruct (Req_EM_T 0 0); [reflexivity|lra].
Qed.
