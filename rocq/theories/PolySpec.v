(** Specification vocabulary for univariate polynomials: lists of coefficients, constant term first. *)
From Coq Require Import ZArith List Reals.
Import ListNotations.
Open Scope R_scope.

(** Value of the polynomial with real coefficients [p] at [x]. *)
Fixpoint peval (p : list R) (x : R) : R :=
  match p with [] => 0 | a :: p' => a + x * peval p' x end.

(** Value at a real point of the polynomial with integer coefficients [p]. *)
Definition zeval (p : list Z) (x : R) : R := peval (map IZR p) x.

(** Value at an integer point. *)
Fixpoint zev (p : list Z) (x : Z) : Z :=
  match p with [] => 0%Z | a :: p' => (a + x * zev p' x)%Z end.

Definition root (p : list Z) (x : R) : Prop := zeval p x = 0.

(** The leading coefficient (last entry) is not zero. *)
Definition lead_ok (p : list Z) : Prop := p <> [] /\ last p 0%Z <> 0%Z.

(** Formal derivative. *)
Fixpoint pder_from (n : Z) (p : list Z) : list Z :=
  match p with [] => [] | a :: p' => (n * a)%Z :: pder_from (n + 1) p' end.
Definition pder (p : list Z) : list Z := match p with [] => [] | _ :: p' => pder_from 1 p' end.

(** No real number is a multiple root. Every squarefree polynomial has this property. *)
Definition simple_roots (p : list Z) : Prop := forall x, root p x -> zeval (pder p) x <> 0.

(** Number of sign changes in the sequence of the nonzero entries. *)
Definition nonzero (l : list Z) : list Z := filter (fun a => negb (Z.eqb a 0)) l.
Fixpoint adj_changes (l : list Z) : nat :=
  match l with
  | a :: ((b :: _) as l') => ((if Z.ltb (a * b) 0 then 1 else 0) + adj_changes l')%nat
  | _ => 0%nat
  end.
Definition variations (l : list Z) : nat := adj_changes (nonzero l).

(** Strictly increasing lists of reals. *)
Fixpoint increasing (l : list R) : Prop :=
  match l with
  | a :: ((b :: _) as l') => a < b /\ increasing l'
  | _ => True
  end.
