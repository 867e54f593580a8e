(** Proofs for GslViewProperties.v *)
From Coq Require Import List Arith ZArith Bool Lia FunctionalExtensionality.
From Verif Require Import Arr GslViewModel GslViewSpec.
Import ListNotations.
Local Open Scope nat_scope.

Lemma horner_acc : forall x ext a, length x = length ext -> fold_left (fun a p => a * snd p + fst p) (combine x ext) a = a * total ext + horner ext x.
Proof.
  induction x as [|i x IH]; intros [|d ext] a H; cbn in *; try lia. unfold horner. cbn [combine fold_left fst snd]. rewrite (IH ext (a * d + i)), (IH ext i) by lia. unfold total. cbn. fold (total ext). nia.
Qed.
Lemma horner_cons i x d ext : length x = length ext -> horner (d :: ext) (i :: x) = i * total ext + horner ext x.
Proof. intros H. unfold horner at 1. cbn [combine fold_left fst snd]. rewrite horner_acc by exact H. cbn. lia. Qed.
Lemma seq_blocks m : forall n a, flat_map (fun i => seq (i * m) m) (seq a n) = seq (a * m) (n * m).
Proof. induction n as [|n IH]; intros a; [reflexivity|]. cbn [seq flat_map Nat.mul]. rewrite IH, seq_app. do 2 f_equal. cbn. lia. Qed.
Lemma seq_shift_by k m : forall b, map (Nat.add k) (seq b m) = seq (k + b) m.
Proof. induction m as [|m IH]; intros b; [reflexivity|]. cbn [seq map]. rewrite IH. f_equal. f_equal. lia. Qed.
Lemma horners ext : map (horner ext) (indices ext) = seq 0 (total ext).
Proof.
  induction ext as [|n sh IH]; [reflexivity|]. cbn [indices]. change (total (n :: sh)) with (n * total sh). change (seq 0 (n * total sh)) with (seq (0 * total sh) (n * total sh)). rewrite <- seq_blocks.
  rewrite !flat_map_concat_map, !concat_map, !map_map. f_equal. apply map_ext. intros i. rewrite map_map. rewrite (map_ext_in _ (fun x => i * total sh + horner sh x)).
  - rewrite <- (map_map (horner sh) (Nat.add (i * total sh))), IH, seq_shift_by. f_equal. lia.
  - intros x Hx. apply horner_cons. apply inr_length. now apply in_indices.
Qed.
Lemma address_shift : forall x s b ext, address (mkView b ext s) x = (b + address (mkView 0 ext s) x)%Z.
Proof.
  intros x s. unfold address. cbn [vStr vBase]. assert (Z : forall l b c, fold_left (fun a p => (a + Z.of_nat (fst p) * snd p)%Z) l (b + c)%Z = (b + fold_left (fun a (p : nat * Z) => (a + Z.of_nat (fst p) * snd p)%Z) l c)%Z).
  { induction l as [|p l IH]; intros b c; cbn; [reflexivity|]. rewrite <- IH. f_equal. lia. }
  intros b ext. rewrite <- Z. f_equal. lia.
Qed.
Lemma address_rows : forall ext x, length x = length ext -> address (created ext) x = Z.of_nat (horner ext x).
Proof.
  induction ext as [|d ext IH]; intros [|i x] H; try discriminate H; [reflexivity|]. rewrite horner_cons by (cbn in H; lia). unfold created, address. cbn [rowStrides vStr vBase combine fold_left fst snd].
  specialize (IH x ltac:(cbn in H; lia)). pose proof (address_shift x (rowStrides ext) (Z.of_nat i * Z.of_nat (total ext)) ext) as Q. unfold address, created in *. cbn [vStr vBase] in *. rewrite Z.add_0_l, Q, IH. lia.
Qed.
Lemma address_row_view v x : vStr v = rowStrides (vExt v) -> length x = length (vExt v) -> address v x = (vBase v + Z.of_nat (horner (vExt v) x))%Z.
Proof. intros H L. destruct v as [b ext s]. cbn [vStr vExt vBase] in *. subst s. rewrite address_shift. f_equal. now apply address_rows. Qed.
Lemma horner_first ext : horner ext (repeat 0 (length ext)) = 0.
Proof. induction ext as [|d ext IH]; [reflexivity|]. cbn [length repeat]. rewrite horner_cons by apply repeat_length. rewrite IH. lia. Qed.
Lemma horner_bound ext x : inr ext x -> horner ext x < total ext.
Proof. intros H. apply in_indices in H. apply (in_map (horner ext)) in H. rewrite horners in H. apply in_seq in H. lia. Qed.
Lemma horner_onto ext k : k < total ext -> exists x, inr ext x /\ horner ext x = k.
Proof. intros H. assert (I : In k (map (horner ext) (indices ext))) by (rewrite horners; apply in_seq; lia). apply in_map_iff in I. destruct I as (x & <- & I). exists x. split; [now apply in_indices|reflexivity]. Qed.

Section P.
Context {E T A : Type}.
Variable e0 : E.
Variable stepApply : nat -> (T -> list E -> list E) -> T -> T -> list E -> bool * list E * A.
Variable hadjust : list E -> A -> T -> T.
Variable plus : T -> T -> T.
Variable half : T -> T.
Variable contiguous : view -> bool.

Lemma putL_app (l : list E) b r e : putL (l ++ b :: r) (length l) e = l ++ e :: r.
Proof. induction l as [|a l IH]; cbn; [reflexivity|]. now rewrite IH. Qed.
Lemma filled (pos : list nat -> nat) (f : list nat -> E) : forall xs done, map pos xs = seq (length done) (length xs) -> fold_left (fun l x => putL l (pos x) (f x)) xs (done ++ repeat e0 (length xs)) = done ++ map f xs.
Proof.
  induction xs as [|x xs IH]; intros done H; cbn in *; [reflexivity|]. injection H as H1 H2. rewrite H1, putL_app. replace (done ++ f x :: repeat e0 (length xs)) with ((done ++ [f x]) ++ repeat e0 (length xs)) by (rewrite <- app_assoc; reflexivity).
  rewrite IH; [rewrite <- app_assoc; reflexivity|]. rewrite app_length. cbn. rewrite H2. f_equal. lia.
Qed.
Lemma lowLevel_rows ext sys t y : local ext sys -> lowLevel (T := T) e0 ext sys t y = asVectors e0 ext sys t y.
Proof.
  intros L. unfold lowLevel, asVectors, rows. set (f := sys t _). set (g := sys t _). rewrite <- (indices_length ext : length (indices ext) = total ext).
  etransitivity; [apply (filled (fun x => Z.to_nat (address (created ext) x)) f (indices ext) [])|].
  2:{ cbn [app]. apply map_ext_in. intros x Hx. apply in_indices in Hx. apply L; [|exact Hx]. intros z Hz. rewrite address_rows by now apply inr_length. now rewrite Nat2Z.id. }
  rewrite (map_ext_in _ (horner ext)); [rewrite horners; cbn [length]; f_equal; symmetry; apply indices_length|]. intros x Hx. apply in_indices in Hx. rewrite address_rows by now apply inr_length. apply Nat2Z.id.
Qed.
Lemma read_rows (v : view) (m : Z -> E) : vStr v = rowStrides (vExt v) -> readAt m (vBase v) (total (vExt v)) = rows (vExt v) (contents v m).
Proof.
  intros H. unfold readAt, rows, contents. rewrite <- horners, map_map. apply map_ext_in. intros x Hx. apply in_indices in Hx. rewrite address_row_view by (auto; now apply inr_length). reflexivity.
Qed.
Lemma go_rows (sys : T -> (list nat -> E) -> list nat -> E) v m t dt : vStr v = rowStrides (vExt v) -> local (vExt v) sys -> keepsLength stepApply ->
  evolves e0 stepApply hadjust plus half sys v m t dt (match stepApply (total (vExt v)) (lowLevel e0 (vExt v) sys) t dt (readAt m (address v (repeat 0 (length (vExt v)))) (total (vExt v))) with
    | (ok, y, a) => Done (writeAt e0 m (address v (repeat 0 (length (vExt v)))) y) (if ok then plus t dt else t) (if ok then hadjust y a dt else half dt) ok end).
Proof.
  intros H L KL. unfold evolves. rewrite indices_length. fold (total (vExt v)).
  replace (asVectors e0 (vExt v) sys) with (lowLevel (T := T) e0 (vExt v) sys) by (apply functional_extensionality; intros t'; apply functional_extensionality; intros y; now apply lowLevel_rows).
  rewrite (address_row_view v) by (auto; apply repeat_length). rewrite horner_first. cbn [Z.of_nat]. rewrite Z.add_0_r, read_rows by exact H.
  destruct (stepApply (total (vExt v)) (lowLevel e0 (vExt v) sys) t dt (rows (vExt v) (contents v m))) as [[ok y] a] eqn:ES. assert (Ly : length y = total (vExt v)) by (rewrite (KL _ _ _ _ _ _ _ _ ES); unfold rows; rewrite map_length; apply indices_length).
  eexists. split; [reflexivity|]. split.
  - transitivity (map (fun i => nth i y e0) (seq 0 (length y))).
    + rewrite Ly, <- horners, map_map. unfold rows, contents. apply map_ext_in. intros x Hx. apply in_indices in Hx. rewrite address_row_view by (auto; now apply inr_length). pose proof (horner_bound _ _ Hx) as B. unfold writeAt. rewrite Ly.
      replace (vBase v <=? vBase v + Z.of_nat (horner (vExt v) x))%Z with true by (symmetry; apply Z.leb_le; lia). replace (vBase v + Z.of_nat (horner (vExt v) x) <? vBase v + Z.of_nat (total (vExt v)))%Z with true by (symmetry; apply Z.ltb_lt; lia). cbn [andb].
      f_equal. lia.
    + clear. induction y as [|b y IH]; [reflexivity|]. cbn [length seq map nth]. f_equal. rewrite <- seq_shift, map_map. exact IH.
  - intros z Hz. unfold writeAt. destruct (vBase v <=? z)%Z eqn:E1; [|reflexivity]. destruct (z <? vBase v + Z.of_nat (length y))%Z eqn:E2; [|reflexivity]. exfalso. apply Z.leb_le in E1. apply Z.ltb_lt in E2. rewrite Ly in E2.
    destruct (horner_onto (vExt v) (Z.to_nat (z - vBase v)) ltac:(lia)) as (x & Hx & Ex). apply (Hz x Hx). rewrite address_row_view by (auto; now apply inr_length). rewrite Ex. lia.
Qed.
Lemma row_major_evolves debug allocated (sys : T -> (list nat -> E) -> list nat -> E) v m t dt : vStr v = rowStrides (vExt v) -> local (vExt v) sys -> keepsLength stepApply ->
  allocated = None \/ (allocated = Some (length (indices (vExt v))) /\ (debug = true -> contiguous v = true)) ->
  let r := tryStep e0 stepApply hadjust plus half contiguous debug allocated sys v m t dt in evolves e0 stepApply hadjust plus half sys v m t dt (fst r) /\ snd r = Some (length (indices (vExt v))).
Proof.
  intros H L KL C r. pose proof (go_rows sys v m t dt H L KL) as G. assert (N : length (indices (vExt v)) = total (vExt v)) by apply indices_length. unfold r, tryStep. destruct C as [-> | [-> C]]; cbn [fst snd]; rewrite N; [now split|].
  rewrite Nat.eqb_refl. split; [|reflexivity]. destruct debug; cbn [andb negb]; [rewrite C by reflexivity; cbn [negb]|]; exact G.
Qed.
Lemma checked_throws d (sys : T -> (list nat -> E) -> list nat -> E) v m t dt :
  (contiguous v = false -> tryStep e0 stepApply hadjust plus half contiguous true (Some d) sys v m t dt = (NonContiguousStorage, Some d)) /\
  (contiguous v = true -> d <> length (indices (vExt v)) -> tryStep e0 stepApply hadjust plus half contiguous true (Some d) sys v m t dt = (DimensionalityMismatch, Some d)).
Proof.
  unfold tryStep. split; [intros ->; reflexivity|]. intros -> H. assert (N : length (indices (vExt v)) = total (vExt v)) by apply indices_length. rewrite N in H. cbn [andb negb]. rewrite (proj2 (Nat.eqb_neq _ _) H). reflexivity.
Qed.
End P.

(** a step: the derivative is added *)
Definition euler (n : nat) (f : nat -> list Z -> list Z) (t dt : nat) (y : list Z) : bool * list Z * unit := (true, map (fun i => (nth i y 0 + nth i (f t y) 0)%Z) (seq 0 (length y)), tt).
Lemma euler_length : keepsLength euler. Proof. intros n f t dt y ok y' a H. injection H as _ <- _. rewrite map_length. apply seq_length. Qed.
(** the derivative is 1 for the element (0,1) only *)
Definition corner (t : nat) (f : list nat -> Z) (x : list nat) : Z := match x with [0; 1] => 1%Z | _ => 0%Z end.
Lemma corner_local ext : local ext corner. Proof. intros t f g _ x _. reflexivity. Qed.
(** all derivatives are 1 *)
Definition ones (t : nat) (f : list nat -> Z) (x : list nat) : Z := 1%Z.
Lemma ones_local ext : local ext ones. Proof. intros t f g _ x _. reflexivity. Qed.
Definition zeroes (z : Z) : Z := 0%Z.
Lemma transposed_wrong contiguous debug : ~ evolves 0%Z euler (fun _ _ dt => dt) Nat.add (fun dt => dt) corner (mkView 0 [2; 2] [1; 2]%Z) zeroes 0 1 (fst (tryStep 0%Z euler (fun _ _ dt => dt) Nat.add (fun dt => dt) contiguous debug None corner (mkView 0 [2; 2] [1; 2]%Z) zeroes 0 1)).
Proof.
  unfold evolves, euler at 1. intros (m' & E & R & _). cbn [tryStep fst vExt total fold_right] in E. unfold euler in E at 1. injection E as <-. assert (X := f_equal (fun l => nth 1 l 5%Z) R). vm_compute in X. discriminate X.
Qed.
Lemma strided_wrong contiguous debug : exists m', fst (tryStep 0%Z euler (fun _ _ dt => dt) Nat.add (fun dt => dt) contiguous debug None ones (mkView 0 [2] [2]%Z) zeroes 0 1) = Done m' 1 1 true /\ m' 1%Z = 1%Z /\ m' 2%Z = 0%Z.
Proof. eexists. split; [reflexivity|]. split; vm_compute; reflexivity. Qed.
Lemma transposed_apart x y : inr [2; 2] x -> inr [2; 2] y -> address (mkView 0 [2; 2] [1; 2]%Z) x = address (mkView 0 [2; 2] [1; 2]%Z) y -> x = y.
Proof.
  intros Hx Hy. apply in_indices in Hx, Hy. cbn in Hx, Hy. repeat (destruct Hx as [<-|Hx]; [repeat (destruct Hy as [<-|Hy]; [vm_compute; first [reflexivity|discriminate]|]); destruct Hy|]). destruct Hx.
Qed.
Lemma gaps_wrong : forall (contiguous : view -> bool) (debug : bool), exists sys v m m' z, local (vExt v) sys /\
  fst (tryStep 0%Z euler (fun _ _ dt => dt) Nat.add (fun dt => dt) contiguous debug None sys v m 0 1) = Done m' 1 1 true /\ (forall x, inr (vExt v) x -> z <> address v x) /\ m' z <> m z.
Proof.
  intros contiguous debug. destruct (strided_wrong contiguous debug) as (m' & E & H1 & _). exists ones, (mkView 0 [2] [2]%Z), zeroes, m', 1%Z. split; [apply ones_local|]. split; [exact E|]. split; [|rewrite H1; discriminate].
  intros x Hx. apply in_indices in Hx. cbn in Hx. repeat (destruct Hx as [<-|Hx]; [vm_compute; discriminate|]). destruct Hx.
Qed.
