(** Specification: programs with state vectors and density operators, read as programs with values.  A name stands for a value (class,
    dimensions, elements), and a statement changes the value of the name it assigns to and of no other; a name moved from
    stands for nothing. *)
From Coq Require Import List Arith Bool.
From Verif Require Import AliasModel.
Import ListNotations.

Section AliasSpec.
  Variables (K : Type) (kz : K) (kadd ksub kmul kdiv : K -> K -> K) (kneg kconj : K -> K).

  Definition value := (kind * list nat * list K)%type.

  Definition values := nat -> option value.

  Definition put (vs : values) (x : nat) (v : option value) : values := fun y => if Nat.eqb y x then v else vs y.

  Definition elementwise {A} (f : K -> A -> K) (v : list K) (w : list A) : list K :=
    map (fun ab => f (fst ab) (snd ab)) (combine v w).

  (** all products [a conj(b)], row after row *)
  Definition dyadOf (v : list K) : list K := map (fun ab => kmul (fst ab) (kconj (snd ab))) (list_prod v v).

  Definition sized (k : kind) (dims : list nat) (v : list K) : Prop :=
    length v = fold_right Nat.mul 1 (match k with Psi => dims | Rho => dims ++ dims end).

  Inductive step (vs : values) : cmd K -> values -> Prop :=
  | step_zero : forall x k dims v, sized k dims v -> Forall (fun a => a = kz) v ->
      step vs (New K x k dims None) (put vs x (Some (k, dims, v)))
  | step_new : forall x k dims v, sized k dims v ->
      step vs (New K x k dims (Some v)) (put vs x (Some (k, dims, v)))
  | step_copy : forall x y v, vs y = Some v -> step vs (Copy K x y) (put vs x (Some v))
  | step_move : forall x y v, vs y = Some v -> step vs (Move K x y) (put (put vs y None) x (Some v))
  | step_assign : forall x y k d v w, vs x = Some (k, d, v) -> vs y = Some (k, d, w) ->
      step vs (Assign K x y) (put vs x (Some (k, d, w)))
  | step_move_assign : forall x y k d v w, vs x = Some (k, d, v) -> vs y = Some (k, d, w) ->
      step vs (MoveAssign K x y) (put (put vs y None) x (Some (k, d, w)))
  | step_add : forall x y k d v w, vs x = Some (k, d, v) -> vs y = Some (k, d, w) ->
      step vs (AddTo K x y) (put vs x (Some (k, d, elementwise kadd v w)))
  | step_sub : forall x y k d v w, vs x = Some (k, d, v) -> vs y = Some (k, d, w) ->
      step vs (SubFrom K x y) (put vs x (Some (k, d, elementwise ksub v w)))
  | step_mul : forall x c k d v, vs x = Some (k, d, v) ->
      step vs (MulBy K x c) (put vs x (Some (k, d, map (fun a => kmul a c) v)))
  | step_div : forall x c k d v, vs x = Some (k, d, v) ->
      step vs (DivBy K x c) (put vs x (Some (k, d, map (fun a => kdiv a c) v)))
  | step_write : forall x k d v w a b, vs x = Some (k, d, v ++ a :: w) ->
      step vs (Write K x (length v) b) (put vs x (Some (k, d, v ++ b :: w)))
  | step_plus : forall x y z k d v w, vs y = Some (k, d, v) -> vs z = Some (k, d, w) ->
      step vs (Plus K x y z) (put vs x (Some (k, d, elementwise kadd v w)))
  | step_minus : forall x y z k d v w, vs y = Some (k, d, v) -> vs z = Some (k, d, w) ->
      step vs (Minus K x y z) (put vs x (Some (k, d, elementwise ksub v w)))
  | step_times : forall x y c k d v, vs y = Some (k, d, v) ->
      step vs (Times K x y c) (put vs x (Some (k, d, map (fun a => kmul a c) v)))
  | step_over : forall x y c k d v, vs y = Some (k, d, v) ->
      step vs (Over K x y c) (put vs x (Some (k, d, map (fun a => kdiv a c) v)))
  | step_neg : forall x y d v, vs y = Some (Rho, d, v) ->
      step vs (Neg K x y) (put vs x (Some (Rho, d, map kneg v)))
  | step_direct : forall x y z d v e w, vs y = Some (Psi, d, v) -> vs z = Some (Psi, e, w) ->
      step vs (Direct K x y z) (put vs x (Some (Psi, d ++ e, map (fun ab => kmul (fst ab) (snd ab)) (list_prod v w))))
  | step_dyad : forall x y d v, vs y = Some (Psi, d, v) ->
      step vs (Dyad K x y) (put vs x (Some (Rho, d, dyadOf v)))
  | step_assign_dyad : forall x y d r v, vs x = Some (Rho, d, r) -> vs y = Some (Psi, d, v) ->
      step vs (AssignDyad K x y) (put vs x (Some (Rho, d, dyadOf v)))
  | step_add_dyad : forall x y w d r v, vs x = Some (Rho, d, r) -> vs y = Some (Psi, d, v) ->
      step vs (AddDyad K x y w)
        (put vs x (Some (Rho, d, elementwise (fun a p => kadd a (kmul (kmul w (fst p)) (kconj (snd p))) ) r (list_prod v v))))
  | step_swap : forall t x y v w, vs x = Some v -> vs y = Some w ->
      step vs (Swap K t x y) (put (put (put vs x (Some w)) y (Some v)) t None).

  Inductive steps : values -> list (cmd K) -> values -> Prop :=
  | steps_nil : forall vs, steps vs [] vs
  | steps_cons : forall vs c vs1 p vs2, step vs c vs1 -> steps vs1 p vs2 -> steps vs (c :: p) vs2.

  Definition nothing : values := fun _ => None.

  (** no [std::swap] in the program *)
  Definition noSwap (p : list (cmd K)) : Prop := forall t x y, ~ In (Swap K t x y) p.

  (** nothing is moved, exchanged or referenced in the program *)
  Definition noMove (c : cmd K) : Prop :=
    match c with Move _ _ _ | MoveAssign _ _ _ | Swap _ _ _ _ | Ref _ _ _ | View _ _ _ _ _ => False | _ => True end.

  (** the name which a statement constructs anew *)
  Definition constructs (c : cmd K) (x : nat) : Prop :=
    match c with
    | New _ y _ _ _ | Copy _ y _ | Move _ y _ | Ref _ y _ | View _ y _ _ _ | Plus _ y _ _ | Minus _ y _ _
    | Times _ y _ _ | Over _ y _ _ | Neg _ y _ | Direct _ y _ _ | Dyad _ y _ | Swap _ y _ _ => x = y
    | _ => False
    end.

End AliasSpec.
