(** C112-C114: Fourier transformation of density operators, and reading trajectory files, in the Python tools. *)
From Coq Require Import String Ascii List Arith Reals Lia.
From Verif Require Import StateFileModel ParsModel OutputSpec CommentModel CommentSpec PyLoadModel PyLoadSpec PyLoad PyJumps Star Arr CReal PyModel PySpec PyTrajModel PyTrajSpec PyDensity.
Import ListNotations.
Local Open Scope nat_scope.

(** C112: every density operator is a sum of |psi><phi|; transforming it is transforming all these states *)
Theorem C112_transform : forall sh r l axes, is_dyads sh r l -> evenAxes sh axes ->
  is_dyads sh (densityFft r axes) (each (to_momentum_space sh axes) l) /\ is_dyads sh (densityIfft r axes) (each (to_position_space sh axes) l).
Proof. exact density_fft. Qed.
Print Assumptions C112_transform.
Theorem C112_every : forall sh r, shape r = sh ++ sh -> exists l, is_dyads sh r l.
Proof. exact every_dyads. Qed.
Print Assumptions C112_every.
(** and back *)
Theorem C112_back : forall sh r axes, shape r = sh ++ sh -> binaryAxes sh axes ->
  shape (densityIfft (densityFft r axes) axes) = shape r /\ forall y z, inr sh y -> inr sh z -> elem (densityIfft (densityFft r axes) axes) (y ++ z) = elem r (y ++ z).
Proof. exact density_back. Qed.
Print Assumptions C112_back.
Example C112_case : evenAxes [4; 3; 8] [2; 0] /\ binaryAxes [4; 3; 8] [2; 0].
Proof.
  assert (N : NoDup [2; 0]) by (repeat constructor; cbn; intuition discriminate). split; (split; [exact N|]); intros p [<-|[<-|[]]]; cbn; (split; [lia|]).
  - split; [lia|reflexivity].
  - split; [lia|reflexivity].
  - exists 3. split; [lia|reflexivity].
  - exists 2. split; [lia|reflexivity].
Qed.

(** C113: with one line of numbers nothing is read *)
Theorem C113_refuted : forall (A : Type) (number : text -> option A) ps rows n, (forall p, In p ps -> proper p) -> Forall2 (reads number) (shown ps) rows -> (forall r, In r rows -> length r = n) -> 2 <= n ->
  length rows = 1 -> loadEvs number (written ps) = None.
Proof. exact @evs_single. Qed.
Print Assumptions C113_refuted.
Example C113_refuted_case : proper (Shown (str "0 0.1 1" ++ [EOL])) /\ shown [Commentary [str "Key" ++ [EOL]]; Shown (str "0 0.1 1" ++ [EOL])] = [str "0 0.1 1" ++ [EOL]].
Proof. split; [|reflexivity]. exists (str "0 0.1 1"). repeat split; intros I; cbn in I; repeat destruct I as [I|I]; try discriminate; contradiction. Qed.
(** with at least two lines, of at least two numbers, the columns are those of the file *)
Theorem C113_columns_partial : forall (A : Type) (number : text -> option A) ps rows n, (forall p, In p ps -> proper p) -> Forall2 (reads number) (shown ps) rows -> (forall r, In r rows -> length r = n) -> 2 <= n ->
  2 <= length rows -> exists cols, loadEvs number (written ps) = Some cols /\ columns rows n cols.
Proof. exact @evs_columns. Qed.
Print Assumptions C113_columns_partial.
(** the header is what is written before the first line of numbers *)
Theorem C113_header : forall texts l ps, (forall p, In p (Commentary texts :: Shown l :: ps) -> proper p) -> words l <> [] ->
  evsHeader (written (Commentary texts :: Shown l :: ps)) = written [Commentary texts].
Proof. exact header_found. Qed.
Print Assumptions C113_header.
Example C113_case : (forall p, In p runFile -> proper p) /\ Forall2 (reads natural) (shown runFile) [[0; 1; 17]; [2; 1; 9]; [4; 2; 5]] /\
  loadEvs natural (written runFile) = Some [[0; 2; 4]; [1; 1; 2]; [17; 9; 5]] /\ evsHeader (written runFile) = str "# Key to data" ++ EOL :: EOL :: str "# 1. <number operator>" ++ [EOL].
Proof. split; [exact run_proper|]. split; [apply run_case|]. split; [apply run_case|reflexivity]. Qed.

(** C114: a single jump is not in a two-dimensional array; the file of a trajectory which was continued cannot be read *)
Theorem C114_refuted : forall (A : Type) (number : text -> option A) ps g, (forall p, In p ps -> proper p) -> untitled ps -> plainLog g ->
  (forall r, Forall2 (fun j r => number (fst j) = Some (fst r) /\ number (snd j) = Some (snd r)) (lgJumps g) [r] -> loadJumps number (written (ps ++ [Commentary [onEnd g]])) = Loaded (Dim1 [fst r; snd r])) /\
  forall t t' ps', plainWord t -> plainWord t' -> (forall p, In p ps' -> proper p) -> number (str "Continuing") = None ->
    loadJumps number (written (ps ++ Commentary [onEnd g] :: Commentary [continuing t t'] :: ps')) = Raised.
Proof. intros A number ps g Hp Hu Hg. split; [intros r; now apply jumps_one|intros t t' ps'; now apply jumps_resumed]. Qed.
Print Assumptions C114_refuted.
(** with at least two jumps, in a file of one run, they are those of the log *)
Theorem C114_partial : forall (A : Type) (number : text -> option A) ps g rows, (forall p, In p ps -> proper p) -> untitled ps -> plainLog g ->
  Forall2 (fun j r => number (fst j) = Some (fst r) /\ number (snd j) = Some (snd r)) (lgJumps g) rows -> 2 <= length rows ->
  loadJumps number (written (ps ++ [Commentary [onEnd g]])) = Loaded (Dim2 (map (fun r => [fst r; snd r]) rows)).
Proof. exact @jumps_many. Qed.
Print Assumptions C114_partial.
Example C114_case : (forall p, In p runFile -> proper p) /\ untitled runFile /\ plainLog (runLog [(str "1", str "0"); (str "3", str "1")]) /\
  loadJumps natural (written (runFile ++ [Commentary [onEnd (runLog [(str "1", str "0"); (str "3", str "1")])]])) = Loaded (Dim2 [[1; 0]; [3; 1]]) /\ natural (str "Continuing") = None.
Proof. split; [exact run_proper|]. split; [exact run_untitled|]. split; [exact run_log|]. split; [exact run_jumps|reflexivity]. Qed.
