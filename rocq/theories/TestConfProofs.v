From Coq Require Import List Arith Bool String Ascii Lia.
From Verif Require Import TestConfModel TestConfSpec.
Import ListNotations.
Local Open Scope string_scope.

(** ** dictionaries *)
Lemma lookup_find {V} (l : dict V) k : lookup l k = match find (fun e => String.eqb k (fst e)) l with Some (_, v) => Some v | None => None end.
Proof. induction l as [|[k' v] l IH]; cbn; [reflexivity|]. destruct (String.eqb k k'); [reflexivity|exact IH]. Qed.
Lemma written_get c s k : written c s k = getKey c s k.
Proof.
  unfold written, getKey. rewrite lookup_find. destruct (find _ c) as [[n l]|]; [|reflexivity]. symmetry. apply lookup_find.
Qed.
Lemma section_has c s : isSection c s <-> hasSection c s = true.
Proof.
  unfold isSection, hasSection. induction c as [|[n l] c IH]; cbn; [easy|]. destruct (String.eqb_spec s n) as [->|N]; [now split; auto|].
  rewrite <- IH. split; [intros [E|H]; [now subst|exact H]|now right].
Qed.
Lemma lookup_app {V} (l m : dict V) k : lookup (l ++ m)%list k = match lookup l k with Some v => Some v | None => lookup m k end.
Proof. induction l as [|[k' v] l IH]; cbn; [reflexivity|]. destruct (String.eqb k k'); [reflexivity|exact IH]. Qed.
Lemma lookup_within c s f s' : lookup (within c s f) s' = if String.eqb s s' then option_map f (lookup c s') else lookup c s'.
Proof.
  unfold within. induction c as [|[n l] c IH]; cbn; [now destruct (String.eqb s s')|].
  destruct (String.eqb_spec s n) as [->|N]; cbn.
  - destruct (String.eqb_spec s' n) as [->|N']; cbn.
    + now rewrite String.eqb_refl.
    + exact IH.
  - destruct (String.eqb_spec s' n) as [->|N']; cbn.
    + destruct (String.eqb_spec s n); [easy|reflexivity].
    + exact IH.
Qed.
Lemma lookup_mapset l k (v : string) k' : lookup (map (fun e : string * string => if String.eqb k (fst e) then (fst e, v) else e) l) k' =
  if String.eqb k k' then option_map (fun _ => v) (lookup l k') else lookup l k'.
Proof.
  induction l as [|[n w] l IH]; cbn; [now destruct (String.eqb k k')|].
  destruct (String.eqb_spec k n) as [->|N]; cbn.
  - destruct (String.eqb_spec k' n) as [->|N']; cbn; [now rewrite String.eqb_refl|exact IH].
  - destruct (String.eqb_spec k' n) as [->|N']; cbn; [destruct (String.eqb_spec k n); [easy|reflexivity]|exact IH].
Qed.
Lemma lookup_remove (l : dict string) k k' : lookup (filter (fun e => negb (String.eqb k (fst e))) l) k' = if String.eqb k k' then None else lookup l k'.
Proof.
  induction l as [|[n w] l IH]; cbn; [now destruct (String.eqb k k')|].
  destruct (String.eqb_spec k n) as [->|N]; cbn.
  - rewrite IH. destruct (String.eqb_spec k' n) as [->|N']; [now rewrite String.eqb_refl|reflexivity].
  - destruct (String.eqb_spec k' n) as [->|N']; cbn; [|exact IH]. destruct (String.eqb_spec k n); [easy|reflexivity].
Qed.
Lemma get_set c s k v s' k' : hasSection c s = true -> getKey (setKey c s k v) s' k' = if String.eqb s s' && String.eqb k k' then Some v else getKey c s' k'.
Proof.
  unfold hasSection, getKey, setKey. intros H. rewrite lookup_within. destruct (String.eqb_spec s s') as [->|N]; cbn [andb]; [|reflexivity].
  destruct (lookup c s') as [l|]; [|discriminate]. cbn. destruct (lookup l k) as [w|] eqn:E.
  - rewrite lookup_mapset. destruct (String.eqb_spec k k') as [<-|N']; [|reflexivity]. now rewrite E.
  - rewrite lookup_app. cbn. rewrite (String.eqb_sym k' k). destruct (String.eqb_spec k k') as [<-|N']; [now rewrite E|]. now destruct (lookup l k').
Qed.
Lemma get_remove c s k s' k' : getKey (removeKey c s k) s' k' = if String.eqb s s' && String.eqb k k' then None else getKey c s' k'.
Proof.
  unfold getKey, removeKey. rewrite lookup_within. destruct (String.eqb_spec s s') as [->|N]; cbn [andb]; [|reflexivity].
  destruct (lookup c s') as [l|]; cbn; [|now destruct (String.eqb k k')]. now rewrite lookup_remove.
Qed.
Lemma section_within c s f s' : hasSection (within c s f) s' = hasSection c s'.
Proof. unfold hasSection. rewrite lookup_within. destruct (String.eqb s s'); [now destruct (lookup c s')|reflexivity]. Qed.

(** ** _local *)
Lemma append_length a b : length (a ++ b) = length a + length b.
Proof. induction a; cbn; [reflexivity|]. now rewrite IHa. Qed.
Lemma substring_append a b : substring (length a) (length b) (a ++ b) = b.
Proof.
  induction a as [|x a IH]; cbn; [|exact IH]. induction b; cbn; [reflexivity|]. now rewrite IHb.
Qed.
Lemma substring_all n s : length s <= n -> substring 0 n s = s.
Proof. revert n. induction s as [|x s IH]; intros [|n]; cbn; intros H; try reflexivity; [lia|]. rewrite IH; [reflexivity|lia]. Qed.
Lemma substring_split n s : n <= length s -> s = substring 0 n s ++ substring n (length s - n) s.
Proof.
  revert n. induction s as [|x s IH]; intros [|n]; cbn; intros H; try reflexivity; try lia.
  - now rewrite substring_all.
  - f_equal. apply IH. lia.
Qed.
Lemma local_spec k : isLocal k <-> endsWith "_local" k = true.
Proof.
  unfold isLocal, endsWith. split.
  - intros [n ->]. apply String.eqb_eq. rewrite append_length. replace (length n + length "_local" - length "_local") with (length n) by lia. apply substring_append.
  - intros E. apply String.eqb_eq in E. destruct (le_lt_dec 6 (length k)) as [L|L].
    + exists (substring 0 (length k - 6) k). rewrite (substring_split (length k - 6) k) at 1 by lia. f_equal.
      replace (length k - (length k - 6)) with 6 by lia. exact E.
    + exfalso. change (length "_local") with 6 in E. replace (length k - 6) with 0 in E by lia. rewrite substring_all in E by lia. subst k. cbn in L. lia.
Qed.

(** ** the value seen in a section by the model *)
Definition seen (c : config) (l : list string) (k : string) : option string := nearest c (if endsWith "_local" k then firstn 1 l else l) k.
Lemma means_seen c l k v : means c l k v <-> v = seen c l k.
Proof.
  unfold means, seen. rewrite local_spec. destruct (endsWith "_local" k); split; intuition congruence.
Qed.
Lemma chain_head c s l : chain c s l -> exists l', l = s :: l'.
Proof. intros []; eauto. Qed.
Lemma chain_det c s l l' : chain c s l -> chain c s l' -> l = l'.
Proof.
  intros C. revert l'. induction C as [s E|s s1 l E I C IH]; intros l' C'; inversion C'; subst; try congruence.
  replace s'  with s1 in * by congruence. f_equal. now apply IH.
Qed.
Lemma chain_in c s l u : chain c s l -> In u l -> exists l' p, chain c u l' /\ l = (p ++ l')%list.
Proof.
  intros C. induction C as [s E|s s1 l E I C IH]; intros H.
  - destruct H as [->|[]]. exists [u], []. split; [now constructor|reflexivity].
  - destruct H as [->|H]; [exists (u :: l), []; split; [now apply next with s1|reflexivity]|].
    destruct (IH H) as (l' & p & C' & ->). exists l', (s :: p). now split.
Qed.
Lemma chain_fresh c s s' l : chain c s (s :: l) -> chain c s' l -> ~ In s l.
Proof.
  intros C C' H. destruct (chain_in _ _ _ _ C' H) as (l' & p & C2 & ->). pose proof (f_equal (@List.length string) (chain_det _ _ _ _ C C2)) as E. cbn in E. rewrite app_length in E. lia.
Qed.

(** ** the loop over the items of the imported section *)
Lemma import_item_section c s e u : hasSection (importItem s c e) u = hasSection c u.
Proof. unfold importItem, setKey. destruct (_ && _); [apply section_within|reflexivity]. Qed.
Lemma import_items_section its : forall c s u, hasSection (fold_left (importItem s) its c) u = hasSection c u.
Proof. induction its as [|e its IH]; cbn; intros; [reflexivity|]. rewrite IH. apply import_item_section. Qed.
Lemma import_items its : forall c s u k, hasSection c s = true ->
  getKey (fold_left (importItem s) its c) u k =
  match getKey c u k with Some v => Some v | None => if String.eqb s u && negb (endsWith "_local" k) then lookup its k else None end.
Proof.
  induction its as [|[k' v'] its IH]; intros c s u k H; cbn [fold_left lookup].
  - destruct (getKey c u k); [reflexivity|]. now destruct (_ && _).
  - rewrite IH by (now rewrite import_item_section). unfold importItem. cbn [fst snd]. unfold hasOption.
    destruct (getKey c s k') as [w|] eqn:E; cbn [negb andb].
    + destruct (getKey c u k) eqn:F; [reflexivity|]. destruct (String.eqb_spec s u) as [<-|N]; cbn [andb]; [|reflexivity].
      destruct (String.eqb_spec k k') as [->|N']; [congruence|reflexivity].
    + destruct (endsWith "_local" k') eqn:L; cbn [negb].
      * destruct (getKey c u k) eqn:F; [reflexivity|]. destruct (String.eqb_spec s u) as [<-|N]; cbn [andb]; [|reflexivity].
        destruct (String.eqb_spec k k') as [->|N']; [now rewrite L|reflexivity].
      * rewrite get_set by exact H. rewrite (String.eqb_sym k' k). destruct (String.eqb_spec s u) as [<-|N]; cbn [andb]; [|reflexivity].
        destruct (String.eqb_spec k k') as [->|N']; cbn; [|reflexivity]. now rewrite E, L.
Qed.

(** ** what does not change with the calls *)
Definition sim (c c' : config) : Prop :=
  forall s l, chain c s l -> exists l', chain c' s l' /\ List.length l' <= List.length l /\ forall k, k <> "import" -> seen c' l' k = seen c l k.
Lemma sim_refl c : sim c c.
Proof. intros s l C. exists l. repeat split; auto. Qed.
Lemma sim_trans a b c : sim a b -> sim b c -> sim a c.
Proof.
  intros H K s l C. destruct (H s l C) as (l1 & C1 & L1 & E1). destruct (K s l1 C1) as (l2 & C2 & L2 & E2). exists l2. split; [exact C2|]. split; [lia|].
  intros k N. now rewrite E2, E1.
Qed.
Lemma seen_cons c s l k : seen c (s :: l) k = match getKey c s k with Some v => Some v | None => if endsWith "_local" k then None else nearest c l k end.
Proof. unfold seen. destruct (endsWith "_local" k); cbn; rewrite written_get; destruct (getKey c s k); reflexivity. Qed.
Lemma nearest_seen c l k : endsWith "_local" k = false -> nearest c l k = seen c l k.
Proof. unfold seen. now intros ->. Qed.

Section Merge.
Variable (c1 : config) (s s' : string).
Hypothesis I1 : getKey c1 s "import" = Some s'.
Hypothesis H' : hasSection c1 s' = true.
Hypothesis F' : getKey c1 s' "import" = None.
Hypothesis N : s <> s'.
Let c2 := removeKey (fold_left (importItem s) (items c1 s') c1) s "import".
Lemma has_s : hasSection c1 s = true.
Proof. unfold hasSection, getKey in *. now destruct (lookup c1 s). Qed.
Lemma items_s' k : lookup (items c1 s') k = getKey c1 s' k.
Proof. unfold items, getKey. now destruct (lookup c1 s'). Qed.
Lemma merged_section u : hasSection c2 u = hasSection c1 u.
Proof. unfold c2, removeKey. rewrite section_within. apply import_items_section. Qed.
Lemma merged_import : getKey c2 s "import" = None.
Proof. unfold c2. rewrite get_remove, String.eqb_refl. reflexivity. Qed.
Lemma merged_other u k : u <> s -> getKey c2 u k = getKey c1 u k.
Proof.
  intros D. unfold c2. rewrite get_remove. destruct (String.eqb_spec s u); [congruence|]. cbn [andb]. rewrite import_items by exact has_s.
  destruct (String.eqb_spec s u); [congruence|]. cbn [andb]. now destruct (getKey c1 u k).
Qed.
Lemma merged_own k : k <> "import" -> getKey c2 s k = seen c1 [s; s'] k.
Proof.
  intros D. unfold c2. rewrite get_remove, String.eqb_refl. cbn [andb]. destruct (String.eqb_spec "import" k); [congruence|].
  rewrite import_items by exact has_s. rewrite seen_cons, String.eqb_refl. cbn [andb]. destruct (getKey c1 s k); [reflexivity|].
  destruct (endsWith "_local" k); cbn [negb]; [reflexivity|]. rewrite items_s'. cbn. rewrite written_get. now destruct (getKey c1 s' k).
Qed.
Lemma merged_sim : sim c1 c2.
Proof.
  intros u l C. induction C as [u E|u u' l E S C IH]; rewrite written_get in E.
  - assert (u <> s) by (intros ->; congruence). exists [u]. split; [constructor; now rewrite written_get, merged_other|]. split; [auto|].
    intros k D. rewrite !seen_cons. now rewrite merged_other.
  - destruct (String.eqb_spec u s) as [->|D].
    + assert (u' = s') as -> by congruence. exists [s]. split; [constructor; rewrite written_get; apply merged_import|]. split; [cbn; lia|].
      intros k K. assert (l = [s']) as ->. { inversion C; subst; [reflexivity|]. rewrite written_get in *. congruence. }
      rewrite seen_cons. rewrite merged_own by exact K. destruct (seen c1 [s; s'] k); [reflexivity|]. now destruct (endsWith "_local" k).
    + destruct IH as (l' & C' & L & E'). exists (u :: l'). split; [|split].
      * apply next with u'; [rewrite written_get, merged_other by exact D; exact E| |exact C']. apply section_has. rewrite merged_section. now apply section_has.
      * cbn. lia.
      * intros k K. rewrite !seen_cons, merged_other by exact D. destruct (getKey c1 u k); [reflexivity|]. destruct (endsWith "_local" k) eqn:W; [reflexivity|].
        rewrite !nearest_seen by exact W. now apply E'.
Qed.
End Merge.

(** ** _import_section *)
Lemma import_ok l : forall limit c s, chain c s l -> List.length l <= limit ->
  exists c', importSection limit s c = Some c' /\ sim c c' /\ (forall u, hasSection c' u = hasSection c u) /\ (forall u k, ~ In u l -> getKey c' u k = getKey c u k) /\
    getKey c' s "import" = None /\ forall k, k <> "import" -> getKey c' s k = seen c l k.
Proof.
  induction l as [|x l IH]; intros limit c s C L; [inversion C|]. destruct limit as [|limit]; [cbn in L; lia|]. cbn [importSection].
  inversion C as [s1 E|s1 s' l1 E S C']; subst.
  - rewrite written_get in E. rewrite E. exists c. split; [reflexivity|]. split; [apply sim_refl|]. repeat split; auto.
    intros k K. rewrite seen_cons. cbn. destruct (getKey c x k); [reflexivity|]. now destruct (endsWith "_local" k).
  - rewrite written_get in E. rewrite E. destruct (IH limit c s' C' ltac:(cbn in L; lia)) as (c1 & R & M & Hs & Ho & Hi & Hk). rewrite R.
    assert (NI : ~ In x l) by (apply (chain_fresh c x s'); assumption).
    assert (H1 : hasSection c1 s' = true) by (rewrite Hs; now apply section_has). rewrite H1.
    assert (I1 : getKey c1 x "import" = Some s') by (rewrite Ho; assumption).
    assert (D : x <> s'). { intros ->. apply NI. destruct (chain_head _ _ _ C') as [l' ->]. now left. }
    eexists. split; [reflexivity|]. split; [eapply sim_trans; [exact M|apply merged_sim; assumption]|]. split; [|split; [|split]].
    + intros u. rewrite merged_section. apply Hs.
    + intros u k NU. rewrite merged_other; try assumption; [|intros ->; apply NU; now left]. apply Ho. intros ?. apply NU. now right.
    + apply merged_import.
    + intros k K. rewrite (merged_own c1 x s') by assumption. rewrite !seen_cons. rewrite Ho by exact NI.
      destruct (getKey c x k); [reflexivity|]. destruct (endsWith "_local" k) eqn:W; [reflexivity|]. cbn. rewrite written_get, Hk by exact K.
      unfold seen. rewrite W. now destruct (nearest c l k).
Qed.
Lemma import_chain limit : forall c s c', importSection limit s c = Some c' -> exists l, chain c s l /\ List.length l <= limit.
Proof.
  induction limit as [|limit IH]; intros c s c' E; cbn [importSection] in E; [discriminate|].
  destruct (getKey c s "import") as [s'|] eqn:G.
  - destruct (importSection limit s' c) as [c1|] eqn:R; [|discriminate]. destruct (hasSection c1 s') eqn:H; [|discriminate].
    destruct (IH _ _ _ R) as (l & C & L). destruct (import_ok l limit c s' C L) as (c2 & R2 & _ & Hs & _). assert (c2 = c1) as -> by congruence.
    exists (s :: l). split; [|cbn; lia]. apply next with s'; [now rewrite written_get| |exact C]. apply section_has. now rewrite <- Hs.
  - exists [s]. split; [constructor; now rewrite written_get|cbn; lia].
Qed.
Lemma call_sim limit c s k : sim c (fst (getOption limit c s k)).
Proof.
  unfold getOption. destruct (importSection limit s c) as [c'|] eqn:E; [|apply sim_refl]. destruct (import_chain _ _ _ _ E) as (l & C & L).
  destruct (import_ok l limit c s C L) as (c2 & E2 & M & _). rewrite E2 in E. injection E as <-. exact M.
Qed.
Lemma calls_sim limit calls : forall c, sim c (afterCalls limit c calls).
Proof.
  unfold afterCalls. induction calls as [|q calls IH]; intros c; cbn [fold_left]; [apply sim_refl|]. eapply sim_trans; [apply call_sim|apply IH].
Qed.
Lemma option_ok limit c s l k : chain c s l -> List.length l <= limit -> k <> "import" ->
  snd (getOption limit c s k) = match seen c l k with Some v => Value v | None => Default end.
Proof.
  intros C L N. unfold getOption. destruct (import_ok l limit c s C L) as (c2 & E2 & _ & _ & _ & _ & K). rewrite E2. cbn [snd]. now rewrite K.
Qed.
Lemma option_after limit c calls s l k : chain c s l -> List.length l <= limit -> k <> "import" ->
  snd (getOption limit (afterCalls limit c calls) s k) = match seen c l k with Some v => Value v | None => Default end.
Proof.
  intros C L N. destruct (calls_sim limit calls c s l C) as (l' & C' & L' & E). rewrite (option_ok limit _ s l') by (assumption || lia). now rewrite E.
Qed.
Lemma option_answer limit c calls s l k a : chain c s l -> List.length l <= limit -> k <> "import" ->
  snd (getOption limit (afterCalls limit c calls) s k) = a <-> (exists v, means c l k v /\ a = match v with Some v => Value v | None => Default end).
Proof.
  intros C L N. rewrite (option_after limit c calls s l k C L N). split.
  - intros <-. exists (seen c l k). split; [now apply means_seen|reflexivity].
  - intros (v & M & ->). apply means_seen in M. now subst.
Qed.
Lemma option_error limit c s k : snd (getOption limit c s k) = Error <-> ~ exists l, chain c s l /\ List.length l <= limit.
Proof.
  unfold getOption. destruct (importSection limit s c) as [c'|] eqn:E; cbn [snd].
  - split; [now destruct (getKey c' s k)|]. intros H. now destruct (H (import_chain _ _ _ _ E)).
  - split; [|reflexivity]. intros _ (l & C & L). destruct (import_ok l limit c s C L) as (c2 & E2 & _). congruence.
Qed.

(** ** run modes *)
Lemma filtered limit c test s l : chain c s l -> List.length l <= limit ->
  filterRunmodes limit c test s =
  Some (let all := split "," (match seen c l "runmodes" with Some v => v | None => "generic" end) in
        match getKey c s ("runmodes_" ++ test ++ "_local") with Some v => filter (fun m => existsb (String.eqb m) (split "," v)) all | None => all end).
Proof.
  intros C L. unfold filterRunmodes. set (k := "runmodes_" ++ test ++ "_local").
  assert (K : k <> "import") by discriminate.
  assert (W : endsWith "_local" k = true). { apply local_spec. exists ("runmodes_" ++ test). unfold k. cbn. now repeat f_equal. }
  pose proof (option_ok limit c s l k C L K) as A. pose proof (option_after limit c [(s, k)] s l "runmodes" C L ltac:(discriminate)) as B.
  unfold afterCalls in B. cbn [fold_left fst snd] in B. destruct (getOption limit c s k) as [c1 a]. cbn [fst snd] in *. subst a.
  unfold runmodes. destruct (getOption limit c1 s "runmodes") as [c2 b]. cbn [snd] in B. subst b.
  assert (X : seen c l k = getKey c s k). { destruct (chain_head _ _ _ C) as [l' ->]. rewrite seen_cons, W. now destruct (getKey c s k). }
  rewrite X. destruct (seen c l "runmodes"), (getKey c s k); reflexivity.
Qed.

(** ** the pieces *)
Lemma get_app_one s a n : String.get n (s ++ String a "") = if Nat.eqb n (length s) then Some a else String.get n s.
Proof. revert n. induction s as [|b s IH]; intros [|n]; cbn; trivial. Qed.
Lemma app_assoc_s (a b c : string) : a ++ (b ++ c) = (a ++ b) ++ c.
Proof. induction a as [|x a IH]; cbn; [reflexivity|]. now rewrite IH. Qed.
Lemma app_nil_s (a : string) : a ++ "" = a.
Proof. induction a as [|x a IH]; cbn; [reflexivity|]. now rewrite IH. Qed.
Lemma splitFrom_pieces s : forall cur, commaFree cur -> pieces (cur ++ s) (splitFrom "," cur s).
Proof.
  induction s as [|a s IH]; intros cur F.
  - cbn. rewrite app_nil_s. split; [discriminate|]. split; [repeat constructor; trivial|reflexivity].
  - cbn [splitFrom]. destruct (Ascii.eqb_spec a ",") as [->|N].
    + assert (E : commaFree "") by (intros [|n]; discriminate). destruct (IH "" E) as (P & Q & W). split; [discriminate|]. split; [now constructor|].
      cbn in W. set (q := splitFrom "," "" s) in *. clearbody q. rewrite <- W. destruct q; [contradiction|]. reflexivity.
    + replace (cur ++ String a s) with ((cur ++ String a "") ++ s) by now rewrite <- app_assoc_s. apply IH.
      intros n. rewrite get_app_one. destruct (Nat.eqb n (length cur)); [congruence|apply F].
Qed.
Lemma split_pieces s : pieces s (split "," s).
Proof. apply (splitFrom_pieces s ""). intros [|n]; discriminate. Qed.
Lemma runmodes_mean limit c test s l : chain c s l -> List.length l <= limit -> exists modes, filterRunmodes limit c test s = Some modes /\ runmodesMean c s l test modes.
Proof.
  intros C L. rewrite (filtered limit c test s l C L). eexists. split; [reflexivity|]. unfold runmodesMean. cbv zeta.
  rewrite nearest_seen by reflexivity. eexists. split; [apply split_pieces|]. rewrite written_get. destruct (getKey c s _) as [v|]; [|reflexivity].
  exists (split "," v), (fun m => existsb (String.eqb m) (split "," v)). split; [apply split_pieces|]. split; [|reflexivity].
  intros m. rewrite existsb_exists. split; [intros (x & I & E); apply String.eqb_eq in E; now subst|intros I; exists m; split; [trivial|apply String.eqb_refl]].
Qed.
(** ** names of files *)
Lemma app_inj_l (p a b : string) : p ++ a = p ++ b -> a = b.
Proof. induction p as [|x p IH]; cbn; [trivial|]. intros E. injection E as E. auto. Qed.
Lemma dot_tail a b x y : dotFree a -> dotFree b -> a ++ (if x : bool then ".state" else "") = b ++ (if y : bool then ".state" else "") -> a = b /\ x = y.
Proof.
  revert b. induction a as [|c a IH]; intros b A B E.
  - destruct b as [|d b]; [destruct x, y; try discriminate; now split|]. cbn in E. destruct x.
    + injection E as E _. subst d. now destruct (B 0).
    + discriminate.
  - destruct b as [|d b].
    + cbn in E. destruct y; [|discriminate]. injection E as E _. subst c. now destruct (A 0).
    + injection E as -> E. destruct (IH b) as [-> ->]; trivial; [intros n; exact (A (S n))|intros n; exact (B (S n))|now split].
Qed.
Lemma output_inj dir m s x m' x' : dotFree m -> dotFree m' -> output dir m s x = output dir m' s x' -> m = m' /\ x = x'.
Proof.
  unfold output. intros D D' E. apply app_inj_l in E. apply app_inj_l in E. apply app_inj_l in E.
  assert (U : forall q, dotFree q -> dotFree ("_" ++ q)) by (intros q H [|n]; [discriminate|exact (H n)]).
  assert (V : dotFree "") by (intros [|n]; discriminate).
  destruct (String.eqb_spec m "generic") as [->|N], (String.eqb_spec m' "generic") as [->|N']; apply dot_tail in E; try (apply U; trivial); trivial; destruct E as [E F]; try discriminate.
  - now split.
  - split; [|trivial]. now apply (app_inj_l "_").
Qed.
Lemma output_dir dir m s x : exists q, output dir m s x = dir ++ "/" ++ s ++ q.
Proof. unfold output. eexists. reflexivity. Qed.
