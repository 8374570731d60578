(** The rare branch of the inversion of Hankel matrices: /repo/src/fglm/fglm_core.c l.252-358 (invert_hankel_matrix when the
    constant coefficient of the first cofactor is zero), berlekamp_massey.c l.319-447 (nmod_em_gcd_preinstantiated), and the
    change of order with this branch. Simplifications: those of FglmModel and BmModel. *)
From Coq Require Import ZArith Arith List Bool.
From Verif Require Import FpSpec ModInvModel NmodModel BmModel FglmModel.
Import ListNotations.
Open Scope Z_scope.

(** nmod_em_gcd_preinstantiated, berlekamp_massey.c l.319-447, on a fresh state with [n] = points->length and rt given. Other than
    in bm_reduce, the degree of rt is n + 1, so that k = npoints - l can be negative; it is then the argument of
    nmod_poly_shift_right (l.397-398), which copies from in front of the array: [None]. *)
Definition em_gcd_pre (p : Z) (n : nat) (rt : list Z) : option quad :=
  let s0 := {| qR0 := nshift p n [1]; qR1 := norm p rt; qV0 := []; qV1 := [1] |} in
  if 2 * ndeg (qR1 s0) <? Z.of_nat n then Some s0 else
  let? s1 := euclid_step p s0 in
  let l := ndeg (qR0 s1) in
  let k := Z.of_nat n - l in
  if l - k <? 10 then euclid_loop (S (S (length (qR1 s1)))) p n s1
  else if k <? 0 then None else hgcd_branch p (Z.to_nat k) s1.
(** rt with the constant coefficient c0, the leading coefficient c1 (degree queue_len + 1) and the points in between,
    l.263-270: points->coeffs[i] at degree queue_len - i *)
Definition rt_down (c1 c0 : Z) (q : list Z) : list Z := c0 :: rev q ++ [c1].
(** l.280-286: points->coeffs[i] at degree i + 1. *)
Definition rt_up (c1 c0 : Z) (q : list Z) : list Z := c0 :: q ++ [c1].
(** one of the two attempts, l.252-300 with (1, 1), (1, 1), l.303-350 with (-1, 1), (1, -1): [None] inside: R1 has another
    degree. *)
Definition attempt (p : Z) (q : list Z) (dim : nat) (d1 d0 u1 u0 : Z) : option (option (list Z * list Z)) :=
  let? s := em_gcd_pre p (length q) (rt_down d1 d0 q) in
  if ndeg (qR1 s) =? Z.of_nat dim then
    let? s' := em_gcd_pre p (length q) (rt_up u1 u0 q) in
    match qR1 s' with
    | [] => None
    | _ => Some (Some (nscal p (zinv p (last (qR1 s) 0)) (qV1 s), nscal p (zinv p (last (qR1 s') 0)) (qV1 s')))
    end
  else Some None.
(** l.252-358. [arr] is the whole array points->coeffs; its first 2 dim - 1 entries have been mirrored (l.222) and not mirrored
    back; points->length is set to 2 dim + 1 (l.259), and that many entries are read. *)
Definition hankel_special (p : Z) (arr : list Z) (dim : nat) : option hinv :=
  let q := firstn (2 * dim + 1) (rev (firstn (2 * dim - 1) arr) ++ skipn (2 * dim - 1) arr) in
  if (length q <? 2 * dim + 1)%nat then None else
  let? r := attempt p q dim 1 1 1 1 in
  match r with
  | Some z => Some (HInv (fst z) (snd z))
  | None =>
      let? r := attempt p q dim (p - 1) 1 1 (p - 1) in
      match r with
      | Some z => Some (HInv (fst z) (snd z))
      | None => Some HSingular
      end
  end.
(** nmod_fglm_compute_trace_data as in FglmModel, with all branches of invert_hankel_matrix (l.207-360). [rest] is what the
    array of the points holds behind the 2 dim points: nothing for the first prime, since nmod_poly_fit_length allocates exactly
    what is needed (l.860 and FLINT). n_invmod of the constant coefficient of Z1 (l.469) fails when it is zero *)
Definition fglm_all (k : kernel) (p : Z) (sqf : list Z -> bool) (sqpart : list Z -> list Z) (m : sp_mat)
    (sq : nat -> nat -> Z) (nv bs : nat) (lin : nat -> bool) (eqs : list (list Z)) (v old rest : list Z) : option fglm_res :=
  let? r := fglm k p sqf sqpart m sq nv bs lin eqs v old in
  match r with
  | Special =>
      let D := m_ncols m in
      let? res := gen_res k p m sq nv bs v old in
      let? pts := gen_pts D bs res in
      let? Be := compute_minpoly p sqf sqpart D pts in
      let elim := snd Be in
      let? h := hankel_special p (pts ++ rest) D in
      match h with
      | HInv Z1 Z2 =>
          if forallb lin (seq 0 (nv - 1)) || negb (nth 0 Z1 0 =? 0) then
            let? cs := coords_loop p Z1 Z2 elim res D bs lin nv (nv - 1) 0 0 [] in
            let? cs := linear_loop p nv elim lin (nv - 1) (rev eqs) cs in
            Some (Param elim cs)
          else None
      | _ => Some Singular
      end
  | _ => Some r
  end.
