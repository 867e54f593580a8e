(** Property C41 *)
From Coq Require Import Reals Lra List Arith.
From Verif Require Import Star CReal FreeExactModel FreeExactSpec FreeExactProofs.
Import ListNotations.

(** C41 as stated fails: the diagonal of a new object is uninitialised memory while its cached time is (0,0), so that the
    first call, if it asks for a zero interval, multiplies with what happens to be in memory. *)
Theorem C41_exact_propagator_refuted : exists dim e mem psi i, i < dim /\
  snd (actWithU oneTime oneEq (elementUpdateU dim e) dim (newFE oneTime mem) 0 0 psi) i <>
  kmul (cexp (kmul (RC (0 - 0)) (eigenvalue e i))) (psi i).
Proof. exact uninitialised. Qed.
Print Assumptions C41_exact_propagator_refuted.

(** What holds: for modes, spins and particles, after any sequence of calls, the state vector is multiplied with the
    propagator of the interval asked for, as soon as this or any call before asked for a nonzero interval. *)
Theorem C41_exact_propagator_partial : forall dim e mem calls t t0 psi i, i < dim ->
  (t <> t0 \/ exists s s0 q, In (s,s0,q) calls /\ s <> s0) ->
  snd (actWithU oneTime oneEq (elementUpdateU dim e) dim
        (callsU oneTime oneEq (elementUpdateU dim e) dim (newFE oneTime mem) calls) t t0 psi) i =
  kmul (cexp (kmul (RC (t - t0)) (eigenvalue e i))) (psi i).
Proof. exact one_time_cache. Qed.
Print Assumptions C41_exact_propagator_partial.

(** The same for any propagator U(t,t0) depending on both times, as soon as any call was not with (0,0). *)
Theorem C41_two_time_partial : forall updateU dim (U : R * R -> nat -> CR),
  (forall t d i, i < dim -> updateU t d i = U t i) ->
  forall calls mem t t0 psi i, i < dim ->
  (twoTime t t0 <> twoTime 0 0 \/ exists s s0 q, In (s,s0,q) calls /\ twoTime s s0 <> twoTime 0 0) ->
  snd (actWithU twoTime twoEq updateU dim (callsU twoTime twoEq updateU dim (newFE twoTime mem) calls) t t0 psi) i =
  kmul (psi i) (U (t, t0) i).
Proof. exact (cache_spec twoTime twoEq twoEq_eq). Qed.
Print Assumptions C41_two_time_partial.

(** histories with repeated, changed and zero intervals *)
Example C41_case : forall psi, let e := ESpin 1 2 in
  snd (actWithU oneTime oneEq (elementUpdateU 2 e) 2
        (callsU oneTime oneEq (elementUpdateU 2 e) 2 (newFE oneTime (fun _ => RC 5)) [(3,3,psi);(2,1,psi);(5,4,psi)]%R) 7 7 psi) 1 =
  kmul (cexp (kmul (RC (7 - 7)) (kmul (RC (- INR 1)) ((1, 2) : CR))))%R (psi 1).
Proof.
  exact (fun psi => C41_exact_propagator_partial 2 (ESpin 1 2) (fun _ => RC 5) [(3,3,psi);(2,1,psi);(5,4,psi)]%R 7 7 psi 1
    (le_n 2) (or_intror (ex_intro _ 2%R (ex_intro _ 1%R (ex_intro _ psi (conj (or_intror (or_introl eq_refl))
       (fun E => Rlt_not_eq 1 2 (Rlt_plus_1 1) (eq_sym E)))))))).
Qed.
