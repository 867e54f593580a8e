(** The header and the jumps in trajectory files. *)
From Coq Require Import String Ascii List Arith Bool Lia.
From Verif Require Import StateFileModel ParsModel OutputSpec OutputProofs CommentModel CommentSpec CommentProofs PyLoadModel PyLoadSpec PyLoad.
Import ListNotations.
Local Open Scope nat_scope.

Lemma header_marked ls r : headerLines (map (fun l => l ++ [EOL]) (map mark ls) ++ r) = map (fun l => l ++ [EOL]) (map mark ls) ++ headerLines r.
Proof.
  induction ls as [|l ls IH]; [reflexivity|]. cbn [map app headerLines]. rewrite IH. destruct l as [|c l]; [reflexivity|]. cbn [mark]. replace (startsWith (str "#") ((commentChar :: blank :: c :: l) ++ [EOL])) with true by reflexivity.
  rewrite andb_false_r. reflexivity.
Qed.
Lemma blanks_words l : onlyBlanks l = true -> words l = [].
Proof.
  induction l as [|c l IH]; intros H; [reflexivity|]. cbn in H. apply andb_true_iff in H as [H1 H2]. rewrite words_space; [now apply IH|]. apply orb_true_iff in H1 as [H1|H1]; apply Ascii.eqb_eq in H1; subst; reflexivity.
Qed.
Lemma header_found texts l ps : (forall p, In p (Commentary texts :: Shown l :: ps) -> proper p) -> words l <> [] -> evsHeader (written (Commentary texts :: Shown l :: ps)) = written [Commentary texts].
Proof.
  intros Hp Hw. destruct (chunks_exist _ Hp) as (cs & Hc). inversion Hc as [|? c1 ? cs1 H1 R1]; subst. inversion R1 as [|? c2 ? cs2 H2 R2]; subst. unfold evsHeader.
  rewrite (written_flat _ _ Hc), pyLines_flat by (eapply chunks_lines; eauto). rewrite (written_flat [Commentary texts] [c1]) by (repeat constructor; exact H1).
  cbn [concat]. rewrite app_nil_r. cbn in H1. destruct H1 as (ls & _ & _ & ->). cbn in H2. destruct H2 as (l' & -> & L1 & L2 & ->). cbn [app]. rewrite map_app, header_marked. cbn [map headerLines].
  replace (onlyBlanks (l' ++ [EOL])) with false by (symmetry; destruct (onlyBlanks (l' ++ [EOL])) eqn:E; auto; apply blanks_words in E; contradiction).
  replace (startsWith (str "#") (l' ++ [EOL])) with false.
  2:{ symmetry. destruct l' as [|c l']; [reflexivity|]. cbn [app startsWith str list_ascii_of_string]. destruct (Ascii.eqb_spec "#" c); [|reflexivity]. subst. exfalso. apply L2. now left. }
  cbn [negb andb]. rewrite app_nil_r. unfold flat. now rewrite flat_map_concat_map.
Qed.

(** ** Jumps *)
Definition beforeTitle (g : mcwfLog) : list text :=
  [[]; str "Total number of MCWF steps: " ++ lgSteps g; []; str "dpLimit overshot: " ++ lgOvershot g ++ str " times, maximal overshoot: " ++ lgMaxOvershoot g;
   str "dpTolerance overshot: " ++ lgTolerance g ++ str " times, maximal overshoot: " ++ lgMaxTolerance g; []; str "Maximal deviation of norm from 1: " ++ lgNorm g; []].
Definition endLines (g : mcwfLog) : list text := beforeTitle g ++ str "MCWF Trajectory:" :: map jumpLine (lgJumps g) ++ [[]].
Lemma onEnd_flat g : onEnd g = flat (endLines g).
Proof.
  unfold endLines, beforeTitle, onEnd, flat. cbn [app flat_map]. rewrite flat_map_app. cbn [flat_map app]. rewrite <- !app_assoc. cbn [app].
  replace (flat_map (fun l => l ++ [EOL]) (map jumpLine (lgJumps g))) with (flat_map (fun j => jumpLine j ++ [EOL]) (lgJumps g)).
  2:{ induction (lgJumps g) as [|j js IH]; [reflexivity|]. cbn. now rewrite IH. }
  repeat (rewrite <- ?app_assoc; cbn [app]). reflexivity.
Qed.
Definition clean (l : text) : Prop := isLine l /\ ~ In commentChar l.
Lemma clean_app a b : clean a -> clean b -> clean (a ++ b).
Proof. intros [A1 A2] [B1 B2]. split; intros I; apply in_app_or in I as [I|I]; auto. Qed.
Lemma clean_str l : forallb (fun c => negb (Ascii.eqb c EOL) && negb (Ascii.eqb c commentChar)) l = true -> clean l.
Proof.
  intros H. rewrite forallb_forall in H. split; intros I; apply H in I; cbn in I; discriminate.
Qed.
Lemma clean_word w : plainWord w -> clean w.
Proof. intros [[_ H] N]. split; [intros I; apply H in I; discriminate|exact N]. Qed.
Lemma end_clean g : plainLog g -> forall l, In l (endLines g) -> clean l.
Proof.
  intros [H J] l I. unfold endLines, beforeTitle in I. cbn [app In] in I.
  assert (W : forall w, In w [lgSteps g; lgOvershot g; lgMaxOvershoot g; lgTolerance g; lgMaxTolerance g; lgNorm g] -> clean w) by (intros w Hw; apply clean_word; auto).
  repeat (destruct I as [<-|I]; [repeat (apply clean_app || (apply W; cbn; tauto)); apply clean_str; reflexivity|]).
  apply in_app_or in I as [I|[<-|[]]]; [|apply clean_str; reflexivity]. apply in_map_iff in I as (j & <- & I). destruct (J j I) as [J1 J2]. unfold jumpLine. apply clean_app; [now apply clean_word|].
  change (tabulator :: snd j) with ([tabulator] ++ snd j). apply clean_app; [apply clean_str; reflexivity|now apply clean_word].
Qed.
(** the title can only be at the beginning of a line *)
Lemma no_sign s l : ~ In commentChar l -> occursIn (commentChar :: s) l = false.
Proof.
  induction l as [|c l IH]; intros H; [reflexivity|]. cbn [occursIn startsWith]. destruct (Ascii.eqb_spec commentChar c) as [<-|N]; [exfalso; apply H; now left|]. cbn [andb orb]. apply IH. intros I. apply H. now right.
Qed.
Definition title : text := str "# MCWF Trajectory:".
Lemma sign_first s l : ~ In commentChar l -> occursIn (commentChar :: s) (commentChar :: l) = startsWith s l.
Proof.
  intros H. cbn [occursIn]. rewrite no_sign by exact H. cbn [startsWith]. rewrite Ascii.eqb_refl. cbn [andb]. apply orb_false_r.
Qed.
Lemma occurs_mark l : ~ In commentChar l -> l <> [] -> occursIn title (mark l ++ [EOL]) = startsWith (str "MCWF Trajectory:") (l ++ [EOL]).
Proof.
  intros H N. destruct l as [|c l]; [contradiction|]. cbn [mark app]. change title with (commentChar :: blank :: str "MCWF Trajectory:").
  rewrite sign_first; [reflexivity|]. intros [I|[I|I]]; [discriminate I|apply H; now left|]. apply in_app_or in I as [I|[I|[]]]; [apply H; now right|discriminate I].
Qed.
Lemma after_app ls r : (forall l, In l ls -> occursIn title l = false) -> afterTitle title (ls ++ r) = afterTitle title r.
Proof. induction ls as [|l ls IH]; intros H; [reflexivity|]. cbn [app afterTitle]. rewrite (H l) by now left. apply IH. intros m I. apply H. now right. Qed.
Lemma before_untitled g : plainLog g -> forall l, In l (map (fun l => l ++ [EOL]) (map mark (beforeTitle g))) -> occursIn title l = false.
Proof.
  intros H l I. rewrite map_map in I. apply in_map_iff in I as (m & <- & I). assert (C : clean m) by (apply (end_clean g H); apply in_or_app; now left).
  destruct m as [|c m]; [reflexivity|]. rewrite occurs_mark; [|apply C|discriminate]. unfold beforeTitle in I. cbn [In] in I.
  repeat (destruct I as [I|I]; [try discriminate I; rewrite <- I; reflexivity|]). contradiction.
Qed.
Lemma mark_jump t n : plainWord t -> plainWord n -> splitLine None (mark (jumpLine (t, n)) ++ [EOL]) = [[commentChar]; t; n].
Proof.
  intros [[Nt St] _] [[Nn Sn] _]. unfold splitLine, jumpLine. cbn [fst snd]. destruct t as [|c t]; [contradiction|]. cbn [mark app]. 
  change (commentChar :: blank :: c :: (t ++ tabulator :: n) ++ [EOL]) with ([commentChar] ++ blank :: ((c :: t) ++ tabulator :: n) ++ [EOL]).
  rewrite words_word; [|intros x [<-|[]]; reflexivity|discriminate|reflexivity]. rewrite <- app_assoc. cbn [app]. change (c :: t ++ tabulator :: n ++ [EOL]) with ((c :: t) ++ tabulator :: n ++ [EOL]).
  rewrite words_word; [|exact St|discriminate|reflexivity]. rewrite words_word; [|exact Sn|exact Nn|reflexivity]. reflexivity.
Qed.
Section Num.
Context {A : Type}.
Variable number : text -> option A.
Definition row (r : A * A) : list A := [fst r; snd r].
Lemma jump_rows js (rows : list (A * A)) : (forall j, In j js -> plainWord (fst j) /\ plainWord (snd j)) ->
  Forall2 (fun j r => number (fst j) = Some (fst r) /\ number (snd j) = Some (snd r)) js rows ->
  let vals := filter nonempty (map (splitLine None) (map (fun l => l ++ [EOL]) (map mark (map jumpLine js ++ [[]])))) in
  vals = map (fun j => [[commentChar]; fst j; snd j]) js /\
  allSome (map (fun ws => allSome (map number ws)) (map (fun j => [fst j; snd j]) js)) = Some (map row rows).
Proof.
  intros Hj H. cbv zeta. rewrite !map_app, filter_app. cbn [map filter]. change (nonempty (splitLine None (mark [] ++ [EOL]))) with false. cbn iota. rewrite app_nil_r.
  induction H as [|[t n] [a b] js rows [E1 E2] _ IH]; [split; reflexivity|]. destruct IH as [I1 I2]; [intros j I; apply Hj; now right|]. cbn [fst snd] in *. destruct (Hj (t, n)) as [P1 P2]; [now left|]. cbn [fst snd] in *.
  split.
  - cbn [map filter]. rewrite mark_jump by auto. cbn [nonempty length Nat.eqb negb]. rewrite I1. reflexivity.
  - cbn [map allSome fst snd]. rewrite E1, E2, I2. reflexivity.
Qed.
Lemma jump_file ps g r cs : (forall p, In p ps -> proper p) -> untitled ps -> plainLog g -> Forall2 chunk r cs ->
  afterTitle title (pyLines (written (ps ++ Commentary [onEnd g] :: r))) = Some (map (fun l => l ++ [EOL]) (map mark (map jumpLine (lgJumps g) ++ [[]]) ++ concat cs)).
Proof.
  intros Hp Hu Hg H2. destruct (chunks_exist ps Hp) as (c1 & H1).
  assert (H3 : chunk (Commentary [onEnd g]) (map mark (endLines g))).
  { exists (endLines g). split; [intros l I; now apply (end_clean g Hg)|]. split; [|reflexivity]. cbn [concat]. rewrite app_nil_r. apply onEnd_flat. }
  assert (H : Forall2 chunk (ps ++ Commentary [onEnd g] :: r) (c1 ++ map mark (endLines g) :: cs)) by (apply Forall2_app; auto).
  rewrite (written_flat _ _ H), pyLines_flat by (eapply chunks_lines; eauto). rewrite concat_app. cbn [concat]. rewrite !map_app.
  unfold untitled in Hu. rewrite (written_flat _ _ H1), pyLines_flat in Hu by (eapply chunks_lines; eauto). rewrite after_app by exact Hu.
  unfold endLines. rewrite !map_app. cbn [map]. rewrite <- !app_assoc. rewrite after_app by now apply before_untitled.
  rewrite !map_app. cbn [map app afterTitle]. replace (occursIn title (mark (str "MCWF Trajectory:") ++ [EOL])) with true by reflexivity. rewrite <- ?app_assoc. reflexivity.
Qed.
Lemma jumps_loaded ps g (rows : list (A * A)) : (forall p, In p ps -> proper p) -> untitled ps -> plainLog g ->
  Forall2 (fun j r => number (fst j) = Some (fst r) /\ number (snd j) = Some (snd r)) (lgJumps g) rows -> loadJumps number (written (ps ++ [Commentary [onEnd g]])) = Loaded (squeeze (map row rows)).
Proof.
  intros Hp Hu Hg H. unfold loadJumps. fold title. rewrite (jump_file ps g [] []) by auto. cbn [concat]. rewrite app_nil_r.
  destruct (jump_rows (lgJumps g) rows (proj2 Hg) H) as [E1 E2]. cbv zeta in E1. unfold loadtxt. cbv zeta. fold nonempty. rewrite E1. rewrite map_map.
  replace (map (fun x => pick (Some [1; 2]) [[commentChar]; fst x; snd x]) (lgJumps g)) with (map Some (map (fun j : text * text => [fst j; snd j]) (lgJumps g))) by (rewrite map_map; reflexivity).
  rewrite allSome_map, E2. rewrite (proj2 (forallb_forall _ _)); [reflexivity|]. intros ws I. apply in_map_iff in I as (j & <- & I). destruct (lgJumps g); [contradiction|reflexivity].
Qed.
Lemma jumps_many ps g (rows : list (A * A)) : (forall p, In p ps -> proper p) -> untitled ps -> plainLog g ->
  Forall2 (fun j r => number (fst j) = Some (fst r) /\ number (snd j) = Some (snd r)) (lgJumps g) rows -> 2 <= length rows ->
  loadJumps number (written (ps ++ [Commentary [onEnd g]])) = Loaded (Dim2 (map (fun r => [fst r; snd r]) rows)).
Proof. intros Hp Hu Hg H L. rewrite (jumps_loaded ps g rows Hp Hu Hg H). f_equal. destruct rows as [|[a b] [|[c d] rows]]; cbn in L; try lia. reflexivity. Qed.
Lemma jumps_one ps g (r : A * A) : (forall p, In p ps -> proper p) -> untitled ps -> plainLog g ->
  Forall2 (fun j r => number (fst j) = Some (fst r) /\ number (snd j) = Some (snd r)) (lgJumps g) [r] -> loadJumps number (written (ps ++ [Commentary [onEnd g]])) = Loaded (Dim1 [fst r; snd r]).
Proof. intros Hp Hu Hg H. rewrite (jumps_loaded ps g [r] Hp Hu Hg H). reflexivity. Qed.
Lemma jumps_resumed ps g t t' r : (forall p, In p ps -> proper p) -> untitled ps -> plainLog g -> plainWord t -> plainWord t' -> (forall p, In p r -> proper p) -> number (str "Continuing") = None ->
  loadJumps number (written (ps ++ Commentary [onEnd g] :: Commentary [continuing t t'] :: r)) = Raised.
Proof.
  intros Hp Hu Hg Ht Ht' Hr Hn. set (line := str "Continuing from time " ++ t ++ str " up to time " ++ t').
  assert (Hc : chunk (Commentary [continuing t t']) [mark line]).
  { exists [line]. split; [|split; [|reflexivity]].
    - intros l [<-|[]]. apply clean_app; [apply clean_str; reflexivity|]. apply clean_app; [now apply clean_word|]. apply clean_app; [apply clean_str; reflexivity|now apply clean_word].
    - unfold continuing, line. cbn [concat flat flat_map]. rewrite !app_nil_r, <- !app_assoc. reflexivity. }
  unfold loadJumps. fold title. destruct (chunks_exist r Hr) as (cr & Hcr). rewrite (jump_file ps g _ ([mark line] :: cr)) by (auto; now constructor).
  cbn [concat app]. unfold loadtxt. cbv zeta. fold nonempty. set (vals := filter nonempty _).
  assert (I : In ([commentChar] :: str "Continuing" :: str "from" :: str "time" :: words (blank :: t ++ str " up to time " ++ t' ++ [EOL])) vals).
  { unfold vals. apply filter_In. split; [|reflexivity]. apply in_map_iff. exists (mark line ++ [EOL]). split.
    - change (mark line ++ [EOL]) with (commentChar :: blank :: (line ++ [EOL])). unfold splitLine, line. rewrite <- !app_assoc. reflexivity.
    - apply (in_map (fun l => l ++ [EOL])). apply in_or_app. right. now left. }
  destruct (allSome (map (pick (Some [1; 2])) vals)) as [picked|] eqn:E; [|reflexivity]. destruct (forallb _ picked); [|reflexivity].
  assert (J : In [str "Continuing"; str "from"] picked).
  { clear - E I. revert picked E. induction vals as [|v vals IH]; intros picked E; [contradiction|]. cbn [map allSome] in E. destruct (pick (Some [1; 2]) v) as [x|] eqn:X; [|discriminate]. destruct (allSome (map (pick (Some [1; 2])) vals)) as [ys|]; [|discriminate]. injection E as <-.
    destruct I as [->|I]; [left; cbn in X; now injection X|right; now apply IH]. }
  rewrite allSome_none; [reflexivity|]. apply in_map_iff. exists [str "Continuing"; str "from"]. split; [|exact J]. cbn [map]. rewrite Hn. reflexivity.
Qed.
End Num.

(** ** A short run of three lines, with two jumps *)
Definition digit (c : ascii) : option nat := let n := nat_of_ascii c in if (48 <=? n) && (n <=? 57) then Some (n - 48) else None.
Fixpoint digitsFrom (acc : nat) (l : text) : option nat := match l with [] => Some acc | c :: l' => match digit c with Some d => digitsFrom (acc * 10 + d) l' | None => None end end.
Definition natural (l : text) : option nat := match l with [] => None | _ => digitsFrom 0 l end.
Definition runLog (js : list (text * text)) : mcwfLog := mkLog (str "25") (str "0") (str "0") (str "0") (str "0") (str "0") js.
Definition runFile : list piece :=
  [Commentary [str "Key to data" ++ [EOL]; EOL :: str "1. <number operator>" ++ [EOL]]; Shown (str "0 1 17" ++ [EOL]); Shown (str "2  1 9" ++ [EOL]); Shown (str "4 2 5" ++ [EOL])].
Lemma run_proper p : In p runFile -> proper p.
Proof.
  intros [<-|[<-|[<-|[<-|[]]]]].
  - right. exists (str "Key to data" ++ EOL :: EOL :: str "1. <number operator>"). reflexivity.
  - exists (str "0 1 17"). repeat split; intros I; cbn in I; repeat destruct I as [I|I]; try discriminate; contradiction.
  - exists (str "2  1 9"). repeat split; intros I; cbn in I; repeat destruct I as [I|I]; try discriminate; contradiction.
  - exists (str "4 2 5"). repeat split; intros I; cbn in I; repeat destruct I as [I|I]; try discriminate; contradiction.
Qed.
Lemma run_untitled : untitled runFile.
Proof. intros l I. cbn in I. repeat (destruct I as [<-|I]; [reflexivity|]). contradiction. Qed.
Lemma plain_of w : w <> [] -> forallb (fun c => negb (isSpace c) && negb (Ascii.eqb c commentChar)) w = true -> plainWord w.
Proof.
  intros N H. rewrite forallb_forall in H. split; [split; [exact N|]|].
  - intros c I. apply H in I. apply andb_true_iff in I as [I _]. now destruct (isSpace c).
  - intros I. apply H in I. discriminate.
Qed.
Lemma run_log : plainLog (runLog [(str "1", str "0"); (str "3", str "1")]).
Proof.
  split; [intros w I; cbn in I; repeat (destruct I as [<-|I]; [apply plain_of; [discriminate|reflexivity]|]); contradiction|].
  intros j I. cbn in I. repeat (destruct I as [<-|I]; [split; apply plain_of; try discriminate; reflexivity|]). contradiction.
Qed.
Lemma run_case : Forall2 (reads natural) (shown runFile) [[0; 1; 17]; [2; 1; 9]; [4; 2; 5]] /\ loadEvs natural (written runFile) = Some [[0; 2; 4]; [1; 1; 2]; [17; 9; 5]].
Proof. split; [repeat constructor|reflexivity]. Qed.
Lemma run_jumps : loadJumps natural (written (runFile ++ [Commentary [onEnd (runLog [(str "1", str "0"); (str "3", str "1")])]])) = Loaded (Dim2 [[1; 0]; [3; 1]]).
Proof. reflexivity. Qed.
