(** Model of the degrees and of the homogeneity flag computed when the input is imported.
    Source: /repo/src/neogb/io.c lines 25-53 (blocks of an exponent vector) and 409-446, hash.c lines 628-629 (degree of a monomial).
    Simplifications, for the whole file: a polynomial is its leading exponent vector and the list of the others, already sorted; exponents and
    degrees are unbounded natural numbers (exp_t and deg_t in the code). *)
From Coq Require Import Arith List Bool Lia.
Import ListNotations.

Definition total (e : list nat) : nat := fold_right Nat.add 0 e.

(** io.c l.40-52 and hash.c l.628-629: the degrees of the two blocks are added; without elimination there is one block. *)
Definition mdeg (nev : nat) (e : list nat) : nat := if nev =? 0 then total e else total (firstn nev e) + total (skipn nev e).

Definition pol := (list nat * list (list nat))%type.

(** io.c l.416-422, the loop over the terms after the first one. *)
Fixpoint deg_loop (nev deg : nat) (hom : bool) (ts : list (list nat)) : nat * bool :=
  match ts with
  | [] => (deg, hom)
  | t :: r => if deg <? mdeg nev t then deg_loop nev (mdeg nev t) true r else deg_loop nev deg hom r
  end.

(** l.411-430: the degrees stored with the generators, and the flag. *)
Fixpoint degrees (nev : nat) (hom : bool) (ps : list pol) : list nat * bool :=
  match ps with
  | [] => ([], hom)
  | (l, ts) :: r =>
      if nev =? 0 then let q := degrees nev hom r in (mdeg nev l :: fst q, snd q)
      else let d := deg_loop nev (mdeg nev l) hom ts in
           let q := degrees nev (snd d) r in (fst d :: fst q, snd q)
  end.

(** l.431-445. *)
Fixpoint check (nev : nat) (ps : list pol) : bool :=
  match ps with
  | [] => true
  | (l, ts) :: r => if existsb (fun t => negb (mdeg nev l =? mdeg nev t)) ts then false else check nev r
  end.

(** l.409-446, with the flag found at the start. *)
Definition import_degrees (nev : nat) (hom : bool) (ps : list pol) : list nat * bool :=
  let q := degrees nev hom ps in (fst q, if snd q then true else check nev ps).
