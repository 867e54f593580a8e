(** Model of the generator of specialisations of Tridiagonal::apply, CPPQEDcore/quantumoperator/applyImpl/generate.py, and of the execution of the code it prints.
    Simplified: what is printed is a list of statements instead of their text; a name like "I2h" is the pair of the number and the letter. *)
From Coq Require Import List Arith Bool.
From Verif Require Import Star Arr TriModel.
Import ListNotations.

(** the letter after the name of a Range: " ", "l", "h" *)
Inductive letter := Whole | Low | High.
Definition rangeName := (nat * letter)%type.
(** "  if (a(j).size()) dpsidt(s0)+=a(j)(s1)*psi(s2);", generate.py:20 *)
Record stmt := mkStmt { sJ : nat; s0 : list rangeName; s1 : list rangeName; s2 : list rangeName }.

(** recurse, generate.py:14-21; [rem]: rank-i. What is printed, and the value returned *)
Fixpoint recurse (rem j i : nat) (t0 t1 t2 : list rangeName) : list stmt * nat :=
  match rem with
  | 0 => ([mkStmt j t0 t1 t2], j + 1)
  | S rem' =>
      let (p1, j1) := recurse rem' j (i + 1) (t0 ++ [(i, Whole)]) (t1 ++ [(i, Whole)]) (t2 ++ [(i, Whole)]) in
      let (p2, j2) := recurse rem' j1 (i + 1) (t0 ++ [(i, High)]) (t1 ++ [(i, Low)]) (t2 ++ [(i, Low)]) in
      let (p3, j3) := recurse rem' j2 (i + 1) (t0 ++ [(i, Low)]) (t1 ++ [(i, Low)]) (t2 ++ [(i, High)]) in
      (p1 ++ p2 ++ p3, j3)
  end.
(** the outermost call, generate.py:46 *)
Definition generate (rank : nat) : list stmt :=
  let (p1, j1) := recurse (rank - 1) 0 1 [(0, Whole)] [(0, Whole)] [(0, Whole)] in
  let (p2, j2) := recurse (rank - 1) j1 1 [(0, High)] [(0, Low)] [(0, Low)] in
  let (p3, _) := recurse (rank - 1) j2 1 [(0, Low)] [(0, Low)] [(0, High)] in
  p1 ++ p2 ++ p3.

Section Exec.
Context {K : StarRing} {T : Type}.
(** the Ranges declared, generate.py:40-44: I(0,ubound), Il(0,ubound-K), Ih(Il+K); lower bound and exclusive upper bound *)
Definition declared (t : tri K T) (n : rangeName) : nat * nat :=
  let d := nth (fst n) (dims t) 0 in let k := nth (fst n) (diffs t) 0 in
  match snd n with Whole => (0, d) | Low => (0, d - k) | High => (0 + k, d - k + k) end.
(** the elements of a subarray given by Ranges, and the corresponding element of another one *)
Fixpoint selected (rs : list (nat * nat)) (y : list nat) : bool :=
  match rs, y with (a, b) :: rs', i :: y' => (a <=? i) && (i <? b) && selected rs' y' | [], [] => true | _, _ => false end.
Fixpoint corresponding (rs rs' : list (nat * nat)) (y : list nat) : list nat :=
  match rs, rs', y with (a, _) :: rs1, (a', _) :: rs1', i :: y' => (i - a + a') :: corresponding rs1 rs1' y' | _, _, _ => [] end.
Definition exec1 (t : tri K T) (psi dpsidt : list nat -> K) (s : stmt) : list nat -> K :=
  if nonempty (diags t (sJ s)) then
    let r0 := map (declared t) (s0 s) in let r1 := map (declared t) (s1 s) in let r2 := map (declared t) (s2 s) in
    fun y => if selected r0 y then kadd (dpsidt y) (kmul (av (diags t (sJ s)) (corresponding r0 r1 y)) (psi (corresponding r0 r2 y))) else dpsidt y
  else dpsidt.
(** the specialisation Tridiagonal<rank>::apply *)
Definition generatedApply (rank : nat) (t : tri K T) (psi dpsidt : list nat -> K) : list nat -> K := fold_left (exec1 t psi) (generate rank) dpsidt.
End Exec.
