(** Berlekamp-Massey by the Euclidean algorithm: /repo/src/fglm/berlekamp_massey.c. The same text is FLINT's
    nmod_berlekamp_massey_*, which fglm_core.c calls for the elimination polynomial (l.860-862); the copy in the repository is
    nmod_berlekamp_massey_reduce_modif (l.450-581), and nmod_em_gcd (l.195-316) is the same once more, used for Hankel
    matrices. *)
From Coq Require Import ZArith Arith List Bool.
From Verif Require Import FpSpec ModInvModel NmodModel.
Import ListNotations.
Open Scope Z_scope.

(** nmod_berlekamp_massey_struct, l.36-48, without the temporaries rt, qt. [bnp] = npoints. *)
Record bms := { bpts : list Z; bnp : nat; bR0 : list Z; bR1 : list Z; bV0 : list Z; bV1 : list Z }.

(** nmod_berlekamp_massey_init_modif, l.83-100, and start_over_modif, l.103-112 *)
Definition bm_start : bms := {| bpts := []; bnp := 0; bR0 := [1]; bR1 := []; bV0 := []; bV1 := [1] |}.
(** nmod_berlekamp_massey_add_points_modif, l.155-168 *)
Definition bm_add_points (B : bms) (a : list Z) : bms :=
  {| bpts := bpts B ++ a; bnp := bnp B; bR0 := bR0 B; bR1 := bR1 B; bV0 := bV0 B; bV1 := bV1 B |}.

Record quad := { qR0 : list Z; qR1 : list Z; qV0 : list Z; qV1 : list Z }.
(** One iteration of Euclid, l.490-497 and l.513-520 *)
Definition euclid_step (p : Z) (s : quad) : option quad :=
  let? qr := ndivrem p (qR0 s) (qR1 s) in
  Some {| qR0 := qR1 s; qR1 := snd qr; qV0 := qV1 s; qV1 := nsub p (qV0 s) (nmul p (fst qr) (qV1 s)) |}.
(** while (npoints <= 2*degree(R1)), l.511-521 *)
Fixpoint euclid_loop (fuel : nat) (p : Z) (n : nat) (s : quad) : option quad :=
  match fuel with
  | O => None
  | S f => if Z.of_nat n <=? 2 * ndeg (qR1 s) then let? s' := euclid_step p s in euclid_loop f p n s' else Some s
  end.
(** nmod_poly_hgcd of FLINT (trusted): the matrix M of the Euclidean quotients, [(a,b) = M (A,B)], stopped at the first
    remainder B with deg B < deg(a)/2 rounded up; [hsg] is its determinant. FLINT computes the same by divide and conquer. Its
    documentation asks for b <> 0, which the caller does not ensure; the model takes M = 1 then. *)
Record hg := { h11 : list Z; h12 : list Z; h21 : list Z; h22 : list Z; hA : list Z; hB : list Z; hsg : Z }.
Fixpoint hgcd_loop (fuel : nat) (p : Z) (da : Z) (h : hg) : option hg :=
  match fuel with
  | O => None
  | S f =>
      if da <=? 2 * ndeg (hB h) then
        let? qr := ndivrem p (hA h) (hB h) in
        hgcd_loop f p da {| h11 := nadd p (nmul p (h11 h) (fst qr)) (h12 h); h12 := h11 h;
                            h21 := nadd p (nmul p (h21 h) (fst qr)) (h22 h); h22 := h21 h;
                            hA := hB h; hB := snd qr; hsg := - hsg h |}
      else Some h
  end.
Definition nmod_hgcd (p : Z) (a b : list Z) : option hg :=
  hgcd_loop (S (length b)) p (ndeg a) {| h11 := [1]; h12 := []; h21 := []; h22 := [1]; hA := a; hB := b; hsg := 1 |}.
(** nmod_poly_sub in the order chosen by the sign, l.546-551 *)
Definition sub_sgn (p sg : Z) (x y : list Z) : list Z := if 0 <? sg then nsub p x y else nsub p y x.
(** The branch with the half gcd, l.523-573 *)
Definition hgcd_branch (p : Z) (k : nat) (s : quad) : option quad :=
  let? h := nmod_hgcd p (skipn k (qR0 s)) (skipn k (qR1 s)) in
  Some {| qV0 := sub_sgn p (hsg h) (nmul p (h22 h) (qV0 s)) (nmul p (h12 h) (qV1 s));
          qV1 := sub_sgn p (hsg h) (nmul p (h11 h) (qV1 s)) (nmul p (h21 h) (qV0 s));
          qR0 := sub_sgn p (hsg h) (nmul p (h22 h) (qR0 s)) (nmul p (h12 h) (qR1 s));
          qR1 := sub_sgn p (hsg h) (nmul p (h11 h) (qR1 s)) (nmul p (h21 h) (qR0 s)) |}.
Definition bm_with (B : bms) (n : nat) (s : quad) : bms :=
  {| bpts := bpts B; bnp := n; bR0 := qR0 s; bR1 := qR1 s; bV0 := qV0 s; bV1 := qV1 s |}.
(** nmod_berlekamp_massey_reduce_modif, l.450-581 = nmod_em_gcd, l.195-316. A negative queue length or shift is an error. *)
Definition bm_reduce (p : Z) (B : bms) : option bms :=
  let n := length (bpts B) in
  if (n <? bnp B)%nat then None else
  let q := (n - bnp B)%nat in
  let rt := norm p (rev (skipn (bnp B) (bpts B))) in
  let s0 := {| qR0 := nadd p (nshift p q (bR0 B)) (nmul p (bV0 B) rt);
               qR1 := nadd p (nshift p q (bR1 B)) (nmul p (bV1 B) rt);
               qV0 := bV0 B; qV1 := bV1 B |} in
  if 2 * ndeg (qR1 s0) <? Z.of_nat n then Some (bm_with B n s0) else
  let? s1 := euclid_step p s0 in
  let l := ndeg (qR0 s1) in
  let k := Z.of_nat n - l in
  if k <? 0 then None else
  let? s2 := if l - k <? 10 then euclid_loop (S (S (length (qR1 s1)))) p n s1 else hgcd_branch p (Z.to_nat k) s1 in
  Some (bm_with B n s2).

(** compute_elim_poly, fglm_core.c l.856-864: the monic minimal polynomial candidate from the points *)
Definition compute_elim_poly (p : Z) (B : bms) (pts : list Z) : option bms :=
  let? B' := bm_reduce p (bm_add_points B pts) in
  let? V := nmonic p (bV1 B') in
  Some {| bpts := bpts B'; bnp := bnp B'; bR0 := bR0 B'; bR1 := bR1 B'; bV0 := bV0 B'; bV1 := V |}.
