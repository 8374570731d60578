(** Dense storage of Groebner bases: what is stored, independently of the code. *)
From Coq Require Import NArith ZArith Arith List Sorted.
From Verif Require Import MonoSpec HilbSpec.
Import ListNotations.
Open Scope N_scope.

(** A polynomial: its coefficients and exponent vectors, the leading one first. *)
Definition poly := list (N * mono).
(** The coefficient of m in f, 0 when m does not occur. *)
Definition coef (f : poly) (m : mono) : N :=
  match find (fun t => if list_eq_dec N.eq_dec (snd t) m then true else false) f with Some t => fst t | None => 0 end.
Definition lead (f : poly) : mono := match f with [] => [] | t :: _ => snd t end.
(** Terms in decreasing degree reverse lexicographic order. *)
Definition decreasing (f : poly) : Prop := StronglySorted (fun a b => drl_lt (snd b) (snd a)) f.
(** A reduced basis for the degree reverse lexicographic order: the leading monomials increase, and no monomial behind a leading one is divisible
    by a leading monomial. (That the polynomials are a Groebner basis plays no role for the storage.) *)
Definition reduced (nv : nat) (B : list poly) : Prop :=
  Forall (fun f => f <> [] /\ decreasing f /\ Forall (fun t => length (snd t) = nv /\ fst t <> 0) f /\ forall t, In t (tl f) -> standard nv (map lead B) (snd t)) B
  /\ StronglySorted drl_lt (map lead B).
(** A dense vector over a list of monomials stands for f: every monomial of f but the leading one is in the list, and the entries are the coefficients. *)
Definition stands_for (v : list N) (mons : list mono) (f : poly) : Prop :=
  v = map (coef (tl f)) mons /\ forall t, In t (tl f) -> In (snd t) mons.
(** Exponent vectors as the hash table keeps them, with the degrees of the blocks (degrees below 2^16, where nothing wraps, see C17). *)
Definition layout (nev : nat) (e : mono) : list N :=
  if (nev =? 0)%nat then mdeg e :: e else mdeg (firstn nev e) :: firstn nev e ++ mdeg (skipn nev e) :: skipn nev e.
(** A polynomial in the last variables only, as an element of the computed basis. *)
Definition kept (nev : nat) (f : poly) : option (list (N * list N)) := Some (map (fun t => (fst t, layout nev (mone nev ++ snd t))) f).
(** An element whose leading monomial contains one of the first [nev] variables. *)
Definition dropped (nv nev : nat) (r : option (list (N * list N))) : Prop :=
  exists c e l, r = Some ((c, layout nev e) :: l) /\ length e = nv /\ mdeg (firstn nev e) <> 0 /\ nev <> 0%nat.
(** The computed basis consists of the polynomials B and of elements that are dropped. *)
Inductive holds (nv nev : nat) : list poly -> list (option (list (N * list N))) -> Prop :=
| holds_nil : holds nv nev [] []
| holds_keep f B rows : holds nv nev B rows -> holds nv nev (f :: B) (kept nev f :: rows)
| holds_drop r B rows : dropped nv nev r -> holds nv nev B rows -> holds nv nev B (r :: rows).
(** The primes, with what was computed for each: nothing, or a basis. Only those with the leading monomials of the first prime are kept. *)
Definition same_leads (leads : list mono) (B : list poly) : bool := if list_eq_dec (list_eq_dec N.eq_dec) (map lead B) leads then true else false.
Fixpoint taken (leads : list mono) (l : list (Z * option (list poly))) : list (Z * list poly) :=
  match l with [] => [] | (p, Some B) :: r => if same_leads leads B then (p, B) :: taken leads r else taken leads r | (_, None) :: r => taken leads r end.
Definition answers (nv nev : nat) (x : Z * option (list (option (list (N * list N))))) (y : Z * option (list poly)) : Prop :=
  fst x = fst y /\ match snd x, snd y with None, None => True | Some rows, Some B => holds nv nev B rows /\ reduced (nv - nev) B | _, _ => False end.
