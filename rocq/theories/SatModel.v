(** Model of the saturation of an ideal by a polynomial, option -S over a prime field. Sources: /repo/src/neogb/f4sat.c,
    la_ff_32.c l.665-806, 1244-1472, 2765-2998, 3991-4046, convert.c l.28-205, 545-640, symbol.c l.403-445,
    f4.c l.25-60, 254-335, order.c; called from /repo/src/msolve/msolve.c l.3645-3720. Simplifications, for the whole file:
    those of F4Model.v (monomials instead of hash values; no statistics and printing); the degrevlex order without
    elimination block (msolve.c l.3680 passes order 0; with an elimination block the exponent vectors of f4sat.c l.246-255
    would be too short); linear_algebra is the exact sparse variant (-l 2, the default); primes below 2^31. *)
From Coq Require Import ZArith NArith Arith List Bool Lia.
From Verif Require Import ModInvModel MonoSpec MonoModel MonoProofs GbSpec LaModel F4Model ProbModel.
Import ListNotations.
Open Scope Z_scope.

(** What the input does not determine besides [config]: the order in which qsort leaves rows that compare equal and in which
    the kernel elements of the parallel loop arrive, an arbitrary rearrangement; the events of the probabilistic linear
    algebra (blocks and values of rand(), ProbModel) as a function of the number of the call, of columns and of rows. *)
Record sconfig := { x_c : config; x_perm : nat -> list (list (nat * Z)) -> list (list (nat * Z));
                    x_evs : nat -> nat -> nat -> list (nat * (nat -> Z)) }.

(** * Quotient basis *)
(** f4sat.c l.253-255: the exponent of variable v increased *)
Definition incr (v : nat) (m : mono) : mono := lset m v (nth v m 0%N + 1)%N.
Definition covered (lms : list mono) (m : mono) : bool := existsb (fun l => mdvdb l m) lms.
(** l.248-263: [cqb[ctr] = ...; if (cqb[ctr] != 0) ctr++]: every candidate is written, also one that is not kept; the
    array has [cap] entries (l.329). The entries kept are collected. *)
Fixpoint gen_write (lms : list mono) (cap : nat) (cand acc : list mono) : option (list mono) :=
  match cand with
  | [] => Some acc
  | m :: r => if (length acc <? cap)%nat then gen_write lms cap r (if covered lms m then acc else acc ++ [m]) else None
  end.
(** the candidates, l.248-252: i runs from nv to 1, j from ind[nv-i] to the end *)
Definition gen_cand (nv : nat) (oqb : list mono) (ind : list nat) : list mono :=
  concat (map (fun k => map (incr (nv - 1 - k)) (skipn (nth k ind O) oqb)) (seq 0 nv)).
Definition isum (l : list nat) : nat := fold_right Nat.add O l.
(** update_indices, l.270-295. Inner loop for one i (variable number i, 0-based, is entry i+1 of an exponent vector): j
    runs from its start to dim; as long as variable i occurs, the entries nv-i .. nv-1 are set to dim. *)
Fixpoint idx_inner (nv i dim : nat) (rest : list mono) (j : nat) (ind : list nat) : list nat :=
  match rest with
  | [] => ind
  | m :: rest' =>
      if (nth i m 0 =? 0)%N then lset ind (nv - i) j
      else idx_inner nv i dim rest' (S j) (fold_left (fun a k => lset a (nv - k) dim) (seq 1 i) ind)
  end.
Definition idx_step (nv : nat) (qb : list mono) (ind : list nat) (i : nat) : list nat :=
  let j := nth (nv - 1 - i) ind O in idx_inner nv i (length qb) (skipn j qb) j ind.
Definition update_indices (nv oqb_dim : nat) (qb : list mono) (ind : list nat) : list nat :=
  fold_left (idx_step nv qb) (rev (seq 1 (nv - 1))) (lset ind 0 oqb_dim).
(** quotient_basis, l.297-367: [cnt] is max_deg - deg. When a leading monomial is constant, qb[0] is 0, which is no hash value
    (with bs->constant set nothing is returned at all): [None]. *)
Fixpoint quot_loop (nv : nat) (lms : list mono) (cnt : nat) (qb : list mono) (ind : list nat) : option (list mono) :=
  match cnt with
  | O => Some qb
  | S c => let? new := gen_write lms (isum ind + nv) (gen_cand nv qb ind) [] in
           match new with
           | [] => Some qb
           | _ => quot_loop nv lms c (qb ++ new) (update_indices nv (length qb) (qb ++ new) ind)
           end
  end.
Definition quotient_basis (nv : nat) (lms : list mono) (max_deg : nat) : option (list mono) :=
  if covered lms (mone nv) then None else quot_loop nv lms max_deg [mone nv] (repeat O nv).

(** * Multipliers and rows *)
(** A row of sat: the multiplier (MULT) and the polynomial. Rows that became zero are removed at once (in the code they are
    null pointers until the next call of update_multipliers, l.396-404). *)
Notation srw := (mono * list (Z * mono))%type (only parsing).
(** l.408-423 *)
Fixpoint keep_rows (sat : list srw) (qb : list mono) : list srw :=
  match sat with
  | [] => []
  | r :: sat' => match qb with
                 | [] => r :: keep_rows sat' []
                 | m :: qb' => if mono_eqb (fst r) m then r :: keep_rows sat' qb' else keep_rows sat' qb
                 end
  end.
(** l.430-465: the last old row whose multiplier divides m; without one, j would run below 0 *)
Definition new_row (kept : list srw) (m : mono) : res srw :=
  let! r := of_opt (find (fun r : srw => mdvdb (fst r) m) (rev kept)) in
  let! f := mul_row (mquo m (fst r)) (snd r) in Ok (m, f).
(** update_multipliers, l.369-492: old rows and new rows; with more old rows than multipliers the surplus is dropped by
    sat->ld = qdim *)
Definition update_mults (nv : nat) (lms : list mono) (max_deg : nat) (sat : list srw) : res (list srw * list srw) :=
  let! qb := of_opt (quotient_basis nv lms max_deg) in
  let kept := keep_rows sat qb in
  let! new := rmap (new_row kept) (skipn (length kept) qb) in
  Ok (firstn (length qb) kept, new).

(** * Linear algebra *)
(** reduce_dense_row_by_known_pivots_sparse_up_to_ff_31_bit, la_ff_32.c l.665-806: the first ncl columns are reduced, the
    others only taken modulo p *)
Definition upto_row (p : Z) (pivs : nat -> option (list (nat * Z))) (ncl ncols : nat) (r : list (nat * Z)) : option (list (nat * Z)) :=
  let? dr := scatter ncols r in
  let sc := match find (fun i => negb (nth i dr 0 =? 0)) (seq 0 ncols) with Some i => i | None => ncols end in
  let? s := red_loop K31 p pivs (ncl - sc) sc dr 0 in
  Some (collect K31 ncl (map (fun d => if d =? 0 then d else Z.rem d p) (skipn ncl (fst s)))).

(** reduce_dense_row_by_known_pivots_sparse_sat_ff_31_bit, l.1244-1472: columns from i on; stops at the first nonzero column
    without pivot; the same multiple of the pivot's multiplier row is subtracted from the multiplier row drm. A pivot is a
    row together with its multiplier row. Result: dense row, multiplier row, leading column if any. *)
Fixpoint sat_loop (p : Z) (pivs : nat -> option (list (nat * Z) * list (nat * Z))) (cnt i : nat) (dr drm : list Z) : option (list Z * list Z * option nat) :=
  match cnt with
  | O => Some (dr, drm, None)
  | S c =>
      let? d0 := drd dr i in
      let d := if d0 =? 0 then d0 else Z.rem d0 p in
      let? dr0 := dwr dr i d in
      if d =? 0 then sat_loop p pivs c (S i) dr0 drm else
      match pivs i with
      | None => Some (dr0, drm, Some i)
      | Some (r, rm) =>
          let? dr1 := apply_row K31 p d r dr0 in
          let? drm1 := apply_row K31 p d rm drm in
          let? dr2 := dwr dr1 i 0 in sat_loop p pivs c (S i) dr2 drm1
      end
  end.
(** l.1429-1447 and 1458-1467: nonzero entries modulo p *)
Definition rem_collect (p : Z) (i : nat) (l : list Z) : list (nat * Z) := collect K31 i (map (fun d => if d =? 0 then d else Z.rem d p) l).
(** l.2909-2973, one row: [pos] its position in sat, [mi] the column of its multiplier, [nm] the number of multipliers. The
    arrays mulh, mulcf, pivcf have ncols entries and are indexed by [pos]. Result: kernel element or new pivot. *)
Definition sat_row (p : Z) (ncols nm : nat) (pivs : nat -> option (list (nat * Z) * list (nat * Z))) (mi pos : nat) (r : list (nat * Z))
  : res ((nat -> option (list (nat * Z) * list (nat * Z))) * list (list (nat * Z))) :=
  match r with
  | [] => Undef
  | t :: _ =>
      let! dr := of_opt (scatter ncols r) in
      let! drm := of_opt (dwr (repeat 0 nm) mi 1) in
      if (pos <? ncols)%nat then
        let! s := of_opt (sat_loop p pivs (ncols - fst t) (fst t) dr drm) in
        let '(dr', drm', lead) := s in
        let rm := rem_collect p 0 drm' in
        match lead with
        | None => let! k := of_opt (normalize_row K31 p rm) in Ok (pivs, [k])
        | Some c =>
            match rem_collect p c (skipn c dr') with
            | [] => Undef
            | (c0, x0) :: q =>
                if x0 =? 1 then Ok ((fun j => if (j =? c0)%nat then Some ((c0, x0) :: q, rm) else pivs j), [])
                else let! inv := of_opt (mod_p_inverse_32 x0 p) in
                     let! rm' := of_opt (scale_row K31 p inv rm) in
                     let! r' := of_opt (normalize_row K31 p ((c0, x0) :: q)) in
                     Ok ((fun j => if (j =? c0)%nat then Some (r', rm') else pivs j), [])
            end
        end
      else Undef
  end.
Fixpoint sat_rows (p : Z) (ncols nm : nat) (pivs : nat -> option (list (nat * Z) * list (nat * Z))) (l : list (nat * nat * list (nat * Z))) : res (list (list (nat * Z))) :=
  match l with
  | [] => Ok []
  | (mi, pos, r) :: l' =>
      let! s := sat_row p ncols nm pivs mi pos r in
      let! ks := sat_rows p ncols nm (fst s) l' in Ok (snd s ++ ks)
  end.
(** matrix_row_mult_cmp_increasing, order.c: larger leading column first, then larger multiplier column *)
Definition mult_le (a b : nat * nat * list (nat * Z)) : bool :=
  if (hcol (snd a) =? hcol (snd b))%nat then (fst (fst b) <=? fst (fst a))%nat else (hcol (snd b) <? hcol (snd a))%nat.

(** exact_sparse_reduced_echelon_form_sat_ff_32, la_ff_32.c l.2765-2998. First stage (l.2806-2856): the rows are reduced by
    the known pivots; a row that becomes zero gives the kernel element "its multiplier", the others replace the rows of
    sat. Second stage (l.2871-2973): dependencies between the remaining rows. Kernel elements are rows over the columns of
    the multipliers, convert_multipliers_to_columns, convert.c l.28-79. *)
Definition kernel_la (p : Z) (hcm hcmm : list mono) (ncl : nat) (rr : list (list (Z * mono))) (rows : list srw)
  : res (list (list (nat * Z)) * list (mono * list (nat * Z))) :=
  let pivs := nth_error (rows_dec (map (to_row hcm) rr)) in
  let! nf := rmap (fun r : srw => of_opt (upto_row p pivs ncl (length hcm) (to_row hcm (snd r)))) rows in
  let all := combine (map fst rows) nf in
  let zero := filter (fun r : mono * list (nat * Z) => match snd r with [] => true | _ => false end) all in
  let k1 := map (fun r : mono * list (nat * Z) => [(pos (fst r) hcmm, 1)]) zero in
  let idx := combine (seq 0 (length all)) all in
  let live := filter (fun x : nat * (mono * list (nat * Z)) => match snd (snd x) with [] => false | _ => true end) idx in
  let up := sort_by mult_le (map (fun x => (pos (fst (snd x)) hcmm, fst x, snd (snd x))) live) in
  let! k2 := sat_rows p (length hcm) (length rows) (fun _ => None) up in
  Ok (k1 ++ k2, map snd live).

(** * Arrays of the basis *)
(** bs->sz, the number of entries of bs->lm and bs->lmps, the number of entries of bs->red. Initially all are init_bs_sz =
    2 * nr_gens (io.c l.814). *)
Record room := { a_sz : nat; a_lm : nat; a_red : nat }.
(** check_enlarge_basis, basis.c l.204-246 *)
Definition enlarge (ld added : nat) (a : room) : room :=
  if (a_sz a <=? ld + added)%nat
  then let s := Nat.max (2 * a_sz a) (ld + added) in {| a_sz := s; a_lm := s; a_red := s |}
  else a.
(** update_basis_f4 (F4Model) with the writes to lm, lmps and red *)
Definition update_room (o : ordering) (a : room) (b : basis) (ps : list spair) (news : list elt) : res (basis * list spair) :=
  let! (b', ps') := update_basis o b ps news in
  if (length (b_lmps b') <=? a_lm a)%nat && (length (b_el b') <=? a_red a)%nat then Ok (b', ps') else Undef.
Definition with_const (b : basis) (els : list elt) : basis :=
  {| b_el := b_el b; b_red := b_red b; b_lmps := b_lmps b; b_lo := b_lo b; b_mlt := b_mlt b; b_nold := b_nold b;
     b_const := b_const b || existsb (fun e => e_deg e =? 0) els |}.

(** One round of the main loop, f4sat.c l.563-603 (as in core_f4, F4Model.round) *)
Definition sround (c : config) (fuel r : nat) (a : room) (b : basis) (ps : list spair) : res (room * basis * list spair * bool) :=
  let! (ps, cols, (rr, tr)) := round_matrix c fuel r b ps in
  let! news := round_rows c r cols rr tr in
  let els := map (mk_elt (o_nev (c_o c))) news in
  let a := match els with [] => a | _ => enlarge (length (b_el b)) (length els) a end in
  let! (b', ps') := update_room (c_o c) a (with_const b els) ps els in
  Ok (a, b', ps', match els with [] => false | _ => true end).

(** * Test *)
Definition pure_power (m : mono) : bool := (count_occ N.eq_dec m 0%N =? length m - 1)%nat.
(** is_zero_dimensional, l.64-86 *)
Definition lms_of (b : basis) : list mono := map (fun i => match nth_error (b_el b) i with Some e => e_lm e | None => [] end) (b_lmps b).
Definition zero_dim (nv : nat) (b : basis) : bool := (length (filter pure_power (lms_of b)) =? nv)%nat.
(** a round of is_already_saturated, l.144-173: the probabilistic linear algebra (fewer than 2^31 rows, otherwise [Limit]) *)
Definition test_rows (x : sconfig) (n r : nat) (cols : list mono * list mono) (rr tr : list (list (Z * mono))) : res (list (list (Z * mono))) :=
  let hcm := fst cols ++ snd cols in
  let rrs := rows_dec (map (to_row hcm) rr) in
  let! _ := when (Z.of_nat (length tr) <? 2 ^ 31) in
  let! l := of_opt (prob_echelon K31 (c_p (x_c x)) (length (fst cols)) (length hcm) (nth_error rrs)
                      (x_perm x n (map (to_row hcm) tr)) (x_evs x n (length hcm) (length tr))) in
  rmap (of_row hcm) (rev l).
Fixpoint test_loop (x : sconfig) (fuel n r : nat) (a : room) (b : basis) (ps : list spair) : res (room * basis * nat) :=
  if done b ps then Ok (a, b, n) else
  match fuel with
  | O => More
  | S f =>
      let! (ps, cols, (rr, tr)) := round_matrix (x_c x) fuel r b ps in
      let! news := test_rows x n r cols rr tr in
      let els := map (mk_elt (o_nev (c_o (x_c x)))) news in
      let a := match els with [] => a | _ => enlarge (length (b_el b)) (length els) a end in
      let! (b', ps') := update_room (c_o (x_c x)) a (with_const b els) ps els in
      test_loop x f (S n) (S r) a b' ps'
  end.
(** is_already_saturated, l.88-216: the first row of sat is added to the basis as it is, not normalised. Afterwards the
    elements are removed again and the old lm, lmps, red are put back: copies with lml, lml and (old) bs->sz entries. Neither
    mltdeg nor bs->sz is put back. *)
Definition already_saturated (x : sconfig) (fuel n : nat) (a : room) (b : basis) (phi : list (Z * mono)) : res (bool * room * basis * nat) :=
  let a0 := enlarge (length (b_el b)) 1 a in
  let! (b1, ps1) := update_room (c_o (x_c x)) a0 b [] [mk_elt (o_nev (c_o (x_c x))) phi] in
  let! (a2, b2, n2) := test_loop x fuel n O a0 b1 ps1 in
  Ok (b_const b2, {| a_sz := a_sz a2; a_lm := length (b_lmps b); a_red := a_sz a0 |},
      {| b_el := b_el b; b_red := b_red b; b_lmps := b_lmps b; b_lo := b_lo b; b_mlt := b_mlt b2; b_nold := b_nold b; b_const := b_const b |}, n2).

(** * Main loop *)
(** state: basis with its arrays, pairs, rows of sat, sat_test, next_deg, nr_kernel_elts, number of calls of the
    probabilistic linear algebra *)
Record sst := { t_a : room; t_b : basis; t_ps : list spair; t_sat : list srw; t_test : nat; t_next : Z; t_nk : nat; t_n : nat }.

(** l.627-722: the body of the loop over the degrees ii. Result: the state and whether the basis has grown. *)
Definition sat_body (x : sconfig) (fuel : nat) (s : sst) (ii : Z) : res (sst * bool) :=
  let c := x_c x in
  let o := c_o c in
  let b := t_b s in
  let! (old, new) := update_mults (o_nv o) (lms_of b) (Z.to_nat ii) (t_sat s) in
  let rows := old ++ new in
  let sht := sht_rows [] (map snd (new ++ old)) in
  let! (sht', leads, rr) := symb fuel (b_el b) (b_lmps b) [] 0 0 sht [] [] in
  match rr with
  | [] => Ok ({| t_a := t_a s; t_b := b; t_ps := t_ps s; t_sat := rows; t_test := t_test s; t_next := t_next s; t_nk := t_nk s; t_n := t_n s |}, false)
  | _ =>
      let cols := columns o sht' leads in
      let hcm := fst cols ++ snd cols in
      let hcmm := msort o (map fst rows) in
      let! (kernel, live) := kernel_la (c_p c) hcm hcmm (length (fst cols)) rr rows in
      let! sat' := rmap (fun r : mono * list (nat * Z) => let! f := of_row hcm (snd r) in Ok (fst r, f)) live in
      match kernel with
      | [] => Ok ({| t_a := t_a s; t_b := b; t_ps := t_ps s; t_sat := sat'; t_test := t_test s; t_next := t_next s; t_nk := t_nk s; t_n := t_n s |}, false)
      | _ =>
          (* l.3991-4013 of la_ff_32.c and l.661-679: inter-reduction of the kernel by the probabilistic linear algebra *)
          let! _ := when (Z.of_nat (length kernel) <? 2 ^ 31) in
          let! l := of_opt (prob_echelon K31 (c_p c) 0 (length rows) (fun _ => None) (x_perm x (t_n s) kernel)
                              (x_evs x (t_n s) (length rows) (length kernel))) in
          let! news := rmap (of_row hcmm) (rev l) in
          let els := map (mk_elt (o_nev o)) news in
          let a := match els with [] => t_a s | _ => enlarge (length (b_el b)) (length els) (t_a s) end in
          let! (b', ps') := update_room o a (with_const b els) (t_ps s) els in
          Ok ({| t_a := a; t_b := b'; t_ps := ps'; t_sat := sat'; t_test := O; t_next := t_next s; t_nk := (t_nk s + length kernel)%nat; t_n := S (t_n s) |},
              match els with [] => false | _ => true end)
      end
  end.
(** l.627: [for (ii = next_deg; ii < sat_deg; ++ii)]; cnt = sat_deg - ii *)
Fixpoint sat_degs (x : sconfig) (fuel cnt : nat) (s : sst) (ii sat_deg : Z) : res sst :=
  match cnt with
  | O => Ok {| t_a := t_a s; t_b := t_b s; t_ps := t_ps s; t_sat := t_sat s; t_test := t_test s; t_next := sat_deg; t_nk := t_nk s; t_n := t_n s |}
  | S c => let! (s', grown) := sat_body x fuel s ii in
           if grown
           then Ok {| t_a := t_a s'; t_b := t_b s'; t_ps := t_ps s'; t_sat := t_sat s'; t_test := t_test s'; t_next := ii; t_nk := t_nk s'; t_n := t_n s' |}
           else sat_degs x fuel c s' (ii + 1) sat_deg
  end.
(** l.607-724: the saturation step; [Some a]: the test found the ideal saturated, and a is the leading coefficient of the row
    it has added (not part of the code's state). sat->hm[0] is a null pointer when the row of
    the multiplier 1 has become zero. *)
Definition sat_step (x : sconfig) (fuel : nat) (s : sst) : res (sst * option Z) :=
  match t_sat s with
  | [] => Undef
  | r0 :: _ =>
      if negb (mono_eqb (fst r0) (mone (o_nv (c_o (x_c x))))) then Undef else
      let nopairs := match t_ps s with [] => true | _ => false end in
      if ((tdeg (lmono (snd r0)) <=? b_mlt (t_b s)) && negb (t_test s =? 0)%nat) || nopairs then
        let! (s, yes) :=
          (if negb (t_nk s =? 0)%nat && nopairs && zero_dim (o_nv (c_o (x_c x))) (t_b s) then
             let! (yes, a, b, n) := already_saturated x fuel (t_n s) (t_a s) (t_b s) (snd r0) in
             Ok ({| t_a := a; t_b := b; t_ps := t_ps s; t_sat := t_sat s; t_test := t_test s; t_next := t_next s; t_nk := t_nk s; t_n := n |}, yes)
           else Ok (s, false)) in
        if yes then Ok (s, Some (match snd r0 with t :: _ => fst t | [] => 0 end)) else
        let sat_deg := if nopairs then b_mlt (t_b s) else 2 * b_mlt (t_b s) / 3 in
        let! s := sat_degs x fuel (Z.to_nat (sat_deg - t_next s)) s (t_next s) sat_deg in
        Ok (s, None)
      else Ok (s, None)
  end.
(** core_f4sat, l.562-725. Result: the final state and how the loop ended: [Some _] if by the test *)
Fixpoint sat_main (x : sconfig) (fuel r : nat) (s : sst) : res (sst * option Z) :=
  match t_ps s with
  | [] => Ok (s, None)
  | _ =>
      match fuel with
      | O => More
      | S f =>
          let! (a, b, ps, found) := sround (x_c x) fuel r (t_a s) (t_b s) (t_ps s) in
          let s1 := {| t_a := a; t_b := b; t_ps := ps; t_sat := t_sat s; t_test := if found then S (t_test s) else t_test s;
                       t_next := t_next s; t_nk := t_nk s; t_n := t_n s |} in
          if b_const b then Ok (s1, None) else
          let! (s2, yes) := sat_step x fuel s1 in
          match yes with Some _ => Ok (s2, yes) | None => sat_main x f (S r) s2 end
      end
  end.

(** reduce_basis, f4.c l.254-335, with interreduce_matrix_rows_ff_32, la_ff_32.c (columns from right to left, each row reduced
    by the rows at its right; LaModel.interreduce with ncl = 0); afterwards the rows whose leading monomial is a multiple of
    that of a row already kept are dropped, starting with the smallest leading monomial *)
Fixpoint keep_min (kept : list mono) (l : list (list (Z * mono))) : list (list (Z * mono)) :=
  match l with
  | [] => []
  | f :: l' => if covered kept (lmono f) then keep_min kept l' else f :: keep_min (lmono f :: kept) l'
  end.
Definition reduce_basis (c : config) (fuel : nat) (els : list elt) (lmps : list nat) : res (list (list (Z * mono))) :=
  let! rr0 := rmap (fun i => let! g := of_opt (nth_error els i) in Ok (e_pol g)) lmps in
  let sht := sht_rows [] rr0 in
  let! (sht', _, rr) := symb fuel els lmps (map lmono rr0) (length sht) 0 sht [] rr0 in
  let hcm := msort (c_o c) sht' in
  let! _ := when (cols_fit (c_k c) (c_p c) (length hcm)) in
  let! l := of_opt (interreduce (c_k c) (c_p c) 0 (length hcm) (length hcm) (known (map (to_row hcm) rr))) in
  let! fs := rmap (of_row hcm) l in
  Ok (keep_min [] fs).

(** core_f4sat with the input of msolve.c: generators F (normalised, engine.c l.97-99) and phi (not normalised) *)
Definition core_f4sat (x : sconfig) (fuel : nat) (F : list (list (Z * mono))) (phi : list (Z * mono)) : res (list (list (Z * mono)) * option Z) :=
  let c := x_c x in
  let! F' := rmap (normalize_poly (c_k c) (c_p c)) F in
  let n0 := (2 * (length F + 1))%nat in
  let a0 := {| a_sz := n0; a_lm := n0; a_red := n0 |} in
  let b0 := {| b_el := []; b_red := []; b_lmps := []; b_lo := O; b_mlt := 0; b_nold := O; b_const := false |} in
  let! (b, ps) := update_room (c_o c) a0 b0 [] (map (mk_elt (o_nev (c_o c))) F') in
  let s0 := {| t_a := a0; t_b := b; t_ps := ps; t_sat := [(mone (o_nv (c_o c)), phi)]; t_test := O; t_next := 0; t_nk := O; t_n := O |} in
  let! (s, yes) := sat_main x fuel O s0 in
  let! out := reduce_basis c fuel (b_el (t_b s)) (final_lmps (t_b s)) in
  Ok (out, yes).
