(** Model of the comparison of trajectories in Testing/testdriver.py: TrajectoryComparer (the regression), StateComparer with final_temperature, PTLA_postprocess;
    and of the functions of scipy they use: interp1d, quadrature. In real arithmetic. *)
From Coq Require Import List Arith Bool Reals.
From Verif Require Import Star CReal Arr VerdictModel.
Import ListNotations.
Local Open Scope nat_scope.

(** ** scipy *)
(** interp1d(x,y): the number of the entries of x before the argument (searchsorted), at least 1 and at most the last one, is the upper end of the segment. None: ValueError, outside of the range, or too few points *)
Fixpoint searchsorted (xs : list R) (t : R) : nat := match xs with [] => 0 | x :: xs' => if Rlt_dec x t then S (searchsorted xs' t) else 0 end.
Definition interp1d (xs ys : list R) (t : R) : option R :=
  let n := length xs in
  if n <? 2 then None
  else if Rlt_dec t (nth 0 xs 0%R) then None
  else if Rlt_dec (nth (n - 1) xs 0%R) t then None
  else let hi := Nat.min (Nat.max (searchsorted xs t) 1) (n - 1) in let lo := hi - 1 in
       let slope := ((nth hi ys 0 - nth lo ys 0) / (nth hi xs 0 - nth lo xs 0))%R in
       Some (slope * (t - nth lo xs 0) + nth lo ys 0)%R.
(** the nodes and weights of Gaussian quadrature on [-1,1], scipy.special.roots_legendre: those of the first three orders; [higher]: the others *)
Definition gauss (higher : nat -> list (R * R)) (n : nat) : list (R * R) :=
  match n with
  | 1 => [(0, 2)]%R
  | 2 => [(- sqrt (1 / 3), 1); (sqrt (1 / 3), 1)]%R
  | 3 => [(- sqrt (3 / 5), 5 / 9); (0, 8 / 9); (sqrt (3 / 5), 5 / 9)]%R
  | _ => higher n
  end.
Section Quadrature.
Variable higher : nat -> list (R * R).
(** fixed_quad; None: the function raises *)
Fixpoint weighted (f : R -> option R) (a b : R) (nodes : list (R * R)) : option R :=
  match nodes with
  | [] => Some 0%R
  | (x, w) :: l => match f ((b - a) * (x + 1) / 2 + a)%R, weighted f a b l with Some y, Some s => Some (w * y + s)%R | _, _ => None end
  end.
Definition fixed_quad (f : R -> option R) (a b : R) (n : nat) : option R := option_map (fun s => ((b - a) / 2 * s)%R) (weighted f a b (gauss higher n)).
(** quadrature, with tol=rtol=1.49e-8 and miniter=1: of orders 1, 2, ..., until two following ones agree. [val] is the previous one, None for infinity *)
Definition tol : R := (149 / 10 ^ 10)%R.
Fixpoint quadLoop (iterations n : nat) (val : option R) (f : R -> option R) (a b : R) : option R :=
  match iterations with
  | O => val
  | S k => match fixed_quad f a b n with
           | None => None
           | Some newval =>
               match val with
               | None => quadLoop k (S n) (Some newval) f a b
               | Some v => let err := Rabs (newval - v) in
                           if Rlt_dec err tol then Some newval else if Rlt_dec err (tol * Rabs newval) then Some newval else quadLoop k (S n) (Some newval) f a b
               end
           end
  end.
Definition quadrature (maxiter : nat) (f : R -> option R) (a b : R) : option R := quadLoop maxiter 1 None f a b.

(** ** TrajectoryComparer *)
Definition sqDiff (f1 f2 : R -> option R) (t : R) : option R := match f1 t, f2 t with Some x, Some y => Some ((x - y) ^ 2)%R | _, _ => None end.
(** _regression, testdriver.py:748-753, for the interpolations of the reference and of the data, lines 745-746 and 681-684; the reference is evaluated at all times of the data, also if nothing is plotted.
    FunctionComparer differs in the reference, which is a function *)
Definition isSome {A} (x : option A) : bool := match x with Some _ => true | None => false end.
Definition regression (f1 f2 : R -> option R) (timeArray : list R) (eps : R) : option bool :=
  match quadrature 1000 (sqDiff f1 f2) (nth 0 timeArray 0%R) (last timeArray 0%R) with
  | None => None
  | Some res => Some (if Rlt_dec res eps then true else false)
  end.
Definition compareColumn (reference : R -> option R) (ts ys : list R) (eps : R) : verdict :=
  let data := interp1d ts ys in
  if forallb (fun t => isSome (reference t)) ts && forallb (fun t => isSome (data t)) ts then toVerdict (regression reference data ts eps) else Raises.
Definition compareTrajectories (refTs refYs ts ys : list R) (eps : R) : verdict := compareColumn (interp1d refTs refYs) ts ys eps.
Definition compareFunction (f : R -> R) (ts ys : list R) (eps : R) : verdict := compareColumn (fun t => Some (f t)) ts ys eps.
End Quadrature.

(** ** StateComparer with final_temperature, testdriver.py:596-602, 622-640; of the last state, a density operator of a system of [dim] levels *)
Definition expectedRho (nTh : R) (i : list nat) : CR := if nth 0 i 0 =? nth 1 i 0 then RC (nTh ^ nth 0 i 0 / (1 + 4) ^ (nth 0 i 0 + 1)) else k0.
Definition finalTemperature (nTh : R) (dim : nat) (rho : list nat -> CR) : R :=
  sqrt (fold_right Rplus 0%R (map (fun i => csq (ksub (rho i) (expectedRho nTh i))) (indices [dim; dim]))).
Definition compareState (nTh : R) (dim : nat) (rho : list nat -> CR) (eps : R) : verdict := if Rlt_dec (finalTemperature nTh dim rho) eps then Succeeds else Exits.

(** ** PTLA_postprocess, testdriver.py:73-80: a line of the output *)
Definition ptlaPostprocess (r : list R) : list R :=
  [nth 0 r 0; nth 1 r 0; (1 + nth 2 r 0) / 2; (1 - nth 2 r 0) / 2; nth 3 r 0 / 2; nth 4 r 0 / 2]%R.
