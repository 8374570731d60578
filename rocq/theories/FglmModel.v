(** Change of order by sparse linear algebra modulo p: /repo/src/fglm/linalg-fglm.c and fglm_core.c. The multiplication
    matrix is applied to a random vector again and again, the minimal polynomial of the scalar sequence is found by
    Berlekamp-Massey, and the parametrisations of the variables are found by solving Hankel systems. *)
From Coq Require Import ZArith Arith List Bool.
From Verif Require Import FpSpec ModInvModel NmodModel BmModel.
Import ListNotations.
Open Scope Z_scope.

Definition wrap32 (x : Z) : Z := x mod 2 ^ 32.
Definition wrap64 (x : Z) : Z := x mod 2 ^ 64.

(** sp_matfglm_t, msolve-data.h l.86-122. [ntriv = ncols - nrows] trivial rows. *)
Record sp_mat := { m_ncols : nat; m_nrows : nat; m_dense : list Z; m_triv_idx : list nat; m_triv_pos : list nat;
                   m_dense_idx : list nat; m_dst : list nat }.

(** The kernel without vector instructions, linalg-fglm.c l.83-231. The loops over four rows and eight columns at a time
    only interleave independent sums, so the model takes the columns one by one. int64 overflow is an error. The single-row loop
    (l.193-229) makes one correction more after every eighth column; it never changes anything and is left out. *)
Definition ck64 (x : Z) : option Z := if (- 2 ^ 63 <=? x) && (x <? 2 ^ 63) then Some x else None.
(** prod += (prod >> 63) & modsquare *)
Definition fix_sign (m2 x : Z) : Z := if x <? 0 then x + m2 else x.
Fixpoint scalar_loop (m2 : Z) (row v : list Z) (prod : Z) : option Z :=
  match row, v with
  | a :: row', b :: v' =>
      let? t := ck64 (a * b) in
      let? prod := ck64 (prod - t) in
      scalar_loop m2 row' v' (fix_sign m2 prod)
  | _, _ => Some prod
  end.
(** l.183-191 and l.225-228: the sign is turned back, and the result is reduced *)
Definition scalar_row (p : Z) (row v : list Z) : option Z :=
  let? m2 := ck64 (p * p) in
  let? s := scalar_loop m2 row v 0 in
  Some (fix_sign m2 (- s) mod p).

(** The AVX2 kernel, linalg-fglm.c l.626-779. One block of 32 columns: lane l (0..3) of the sum res1 receives the eight
    products of the columns 8t+2l and 8t+2l+1, t = 0..3; additions wrap modulo 2^64 (l.682-747). *)
Definition lane (l : nat) (row v : list Z) : Z :=
  fold_left (fun acc t => let i := (8 * t + 2 * l)%nat in
      wrap64 (acc + wrap64 (nth i row 0 * nth i v 0 + nth (S i) row 0 * nth (S i) v 0)))
    [0; 1; 2; 3]%nat 0.
(** acc_low and acc_high of the four lanes, l.749-750, over [quo] blocks *)
Fixpoint acc_blocks (quo : nat) (l : nat) (row v : list Z) (lo hi : Z) : Z * Z :=
  match quo with
  | O => (lo, hi)
  | S q => let r := lane l row v in
      acc_blocks q l (skipn 32 row) (skipn 32 v) (wrap64 (lo + r mod 2 ^ 32)) (wrap64 (hi + r / 2 ^ 32))
  end.
(** l.764-770: the two registers of one lane are folded *)
Definition fold_lane (p red32 red64 : Z) (lh : Z * Z) : Z :=
  let lo := wrap64 (fst lh + wrap64 ((snd lh / 2 ^ 32) * red64) mod p) in
  let lo := wrap64 (lo + wrap64 ((snd lh mod 2 ^ 32) * red32) mod p) in
  lo mod p.
(** l.775-779: the last columns one by one *)
Definition tail_sum (p : Z) (row v : list Z) : Z :=
  fold_left (fun acc ab => acc + (fst ab * snd ab) mod p) (combine row v) 0.
(** One row, of which only the first [n] entries are used (n = ncols - dst[j], l.670-680). *)
Definition avx_row (p red32 red64 : Z) (n : nat) (row v : list Z) : Z :=
  let quo := (n / 32)%nat in
  let rem := (n mod 32)%nat in
  let acc := fold_left (fun acc l => wrap64 (acc + fold_lane p red32 red64 (acc_blocks quo l row v 0 0))) [0; 1; 2; 3]%nat 0 in
  let r := wrap32 (acc mod p) in
  (r + tail_sum p (firstn rem (skipn (32 * quo) row)) (firstn rem (skipn (32 * quo) v))) mod p.
(** generate_sequence_verif, fglm_core.c l.766-769: the two constants; 2^64 mod p is computed in 32 bits *)
Definition red32_of (p : Z) : Z := wrap64 (2 * 2 ^ 31) mod p.
Definition red64_of (p : Z) : Z := wrap32 (wrap32 (2 ^ 63 mod p) * 2) mod p.

(** The entries of row j. The address is computed in 32 bits, mat + j*ncols; reading past the end is an error. The kernel
    without vector instructions adds the column before wrapping, which gives the same when nothing wraps. *)
Definition row_of (m : sp_mat) (j : nat) : option (list Z) :=
  let base := Z.to_nat (wrap32 (Z.of_nat j * Z.of_nat (m_ncols m))) in
  if (base + m_ncols m <=? length (m_dense m))%nat then Some (firstn (m_ncols m) (skipn base (m_dense m))) else None.
Inductive kernel := Scalar | Avx.
Definition row_product (k : kernel) (p : Z) (m : sp_mat) (v : list Z) (j : nat) : option Z :=
  let? row := row_of m j in
  match k with
  | Scalar => scalar_row p row v
  | Avx => let? d := nth_error (m_dst m) j in
           if (m_ncols m <? d)%nat then None else Some (avx_row p (red32_of p) (red64_of p) (m_ncols m - d) row v)
  end.
Fixpoint omap {A B} (f : A -> option B) (l : list A) : option (list B) :=
  match l with [] => Some [] | x :: l' => let? y := f x in let? r := omap f l' in Some (y :: r) end.
(** writing into an array; out of bounds is an error *)
Fixpoint upd (l : list Z) (i : nat) (x : Z) : option (list Z) :=
  match l, i with
  | [], _ => None
  | _ :: l', O => Some (x :: l')
  | y :: l', S i' => let? r := upd l' i' x in Some (y :: r)
  end.
Fixpoint upds (l : list Z) (ixs : list (nat * Z)) : option (list Z) :=
  match ixs with [] => Some l | (i, x) :: r => let? l' := upd l i x in upds l' r end.
(** sparse_mat_fglm_mult_vec, fglm_core.c l.481-518, into the old contents [res] of the result *)
Definition mult_vec (k : kernel) (p : Z) (m : sp_mat) (res v : list Z) : option (list Z) :=
  let ntriv := (m_ncols m - m_nrows m)%nat in
  let? tv := omap (fun i => let? a := nth_error (m_triv_idx m) i in let? b := nth_error (m_triv_pos m) i in
                            let? x := nth_error v b in Some (a, x)) (seq 0 ntriv) in
  let? res := upds res tv in
  let? vres := omap (row_product k p m v) (seq 0 (m_nrows m)) in
  let? dv := omap (fun i => let? a := nth_error (m_dense_idx m) i in let? x := nth_error vres i in Some (a, x)) (seq 0 (m_nrows m)) in
  upds res dv.

(** initialize_fglm_data, l.1478-1481, and generate_sequence_verif, l.756-852. [res] has 2*nvars*ncols entries (allocate_fglm_data, data_fglm.c l.41-69). After
    the i-th product the first entry goes to res[i*bs] and the entries 2..bs to res[i*bs+1..]; for i < ncols the entries of res
    at (i+ncols)*bs+1.. receive other entries of the vector, used only when the ideal is not in shape position: their values are
    a parameter [sq]. The two work vectors are swapped at each step (l.797-799). *)
Definition store_row (bs i : nat) (v : list Z) (res : list Z) : option (list Z) :=
  let? x0 := nth_error v 0 in
  let? res := upd res (i * bs) x0 in
  let? w := omap (fun j => let? x := nth_error v (S j) in Some ((i * bs + j)%nat, x)) (seq 1 (bs - 1)) in
  upds res w.
Definition store_sq (sq : nat -> nat -> Z) (D bs i : nat) (res : list Z) : option (list Z) :=
  upds res (map (fun j => (((i + D) * bs + j)%nat, sq i j)) (seq 1 (bs - 1))).
Fixpoint seq_loop (k : kernel) (p : Z) (m : sp_mat) (sq : nat -> nat -> Z) (bs : nat) (n i : nat) (v old res : list Z)
    : option (list Z) :=
  match n with
  | O => Some res
  | S n' =>
      let? v' := mult_vec k p m old v in
      let? res :=
        if (i <? m_ncols m)%nat then let? r := store_row bs i v' res in store_sq sq (m_ncols m) bs i r
        else let? x0 := nth_error v' 0 in upd res (i * bs) x0 in
      seq_loop k p m sq bs n' (S i) v' v res
  end.
Definition gen_res (k : kernel) (p : Z) (m : sp_mat) (sq : nat -> nat -> Z) (nv bs : nat) (v old : list Z) : option (list Z) :=
  let D := m_ncols m in
  let? res := store_row bs 0 v (repeat 0 (2 * nv * D)) in
  let? res := store_sq sq D bs 0 res in
  seq_loop k p m sq bs (2 * D - 1) 1 v old res.
(** l.848-850 *)
Definition gen_pts (D bs : nat) (res : list Z) : option (list Z) := omap (fun i => nth_error res (i * bs)) (seq 0 (2 * D)).

(** compute_minpoly, l.933-951, and make_square_free_elim_poly, l.867-905. FLINT's test of squarefreeness and its
    squarefree factorisation (product of the factors, each taken once) are parameters. Result: the state of
    Berlekamp-Massey and the elimination polynomial. *)
Definition compute_minpoly (p : Z) (sqf : list Z -> bool) (sqpart : list Z -> list Z) (D : nat) (pts : list Z)
    : option (bms * list Z) :=
  let? B := compute_elim_poly p bm_start pts in
  let V := if (length (bV1 B) =? 1)%nat then [0; 1] else bV1 B in
  let elim := if sqf V && (ndeg V =? Z.of_nat D) then V else sqpart V in
  Some (B, elim).

(** invert_hankel_matrix, l.207-360. [pts] are the points added before. The branch for V1(0) = 0 (l.257-358) is not
    modelled: [HSpecial]. *)
Inductive hinv := HInv (Z1 Z2 : list Z) | HSingular | HSpecial.
Definition restart (pts : list Z) : bms := bm_add_points bm_start pts.
Definition invert_hankel (p : Z) (pts : list Z) (dim : nat) : option hinv :=
  if (length pts <? 2 * dim - 1)%nat then None else
  let q := firstn (2 * dim - 1) pts in
  let? B := bm_reduce p (restart (rev q)) in
  if (ndeg (bR1 B) <? Z.of_nat dim - 1) && (1 <? dim)%nat then Some HSingular else
  if nth 0 (bV1 B) 0 =? 0 then Some HSpecial else
  match bR1 B with
  | [] => None
  | _ =>
      let Z1 := nscal p (zinv p (last (bR1 B) 0)) (bV1 B) in
      let? B' := bm_reduce p (restart q) in
      match bR1 B' with
      | [] => None
      | _ => Some (HInv Z1 (nscal p (zinv p (last (bR1 B') 0)) (bV1 B')))
      end
  end.

(** mirror_poly_solve, l.174-188: an array of [len] coefficients, reversed *)
Definition mirror (a : list Z) (len : nat) : list Z := rev (map (pc a) (seq 0 len)).
(** nmod_poly_mullow *)
Definition mullow (p : Z) (a b : list Z) (n : nat) : list Z := norm p (firstn n (pmul a b)).
(** solve_hankel, l.417-471, on the right-hand side V of [dim] entries *)
Definition solve_hankel (p : Z) (Z1 Z2 V : list Z) (dim : nat) : list Z :=
  let V' := rev V in
  let rZ1 := mirror Z1 (S dim) in
  let rZ2 := mirror Z2 (S dim) in
  let A := mullow p rZ1 V' dim in
  let B := mullow p Z2 V' dim in
  let B' := mirror B dim in
  let A' := mirror A dim in
  let P1 := mullow p Z1 B' dim in
  let P2 := norm p (popp (mullow p rZ2 A' dim)) in
  nscal p (zinv p (nth 0 Z1 0)) (nadd p P1 P2).
(** l.417-427: the column of res, V_i = res[ncoord-1 + i*bs] *)
Definition hankel_rhs (res : list Z) (dim bs ncoord : nat) : option (list Z) :=
  omap (fun i => nth_error res (ncoord - 1 + i * bs)) (seq 0 dim).
(** nmod_poly_rem *)
Definition nrem (p : Z) (a b : list Z) : option (list Z) := let? qr := ndivrem p a b in Some (snd qr).
(** l.1071-1081: one coordinate from a column *)
Definition coord_of (p : Z) (Z1 Z2 elim V : list Z) (dim : nat) : option (list Z) :=
  nrem p (norm p (mirror (norm p (popp (solve_hankel p Z1 Z2 V dim))) dim)) elim.
(** compute_parametrizations, l.1040-1110: the coordinates nv-2, nv-3, ..., 0, those of linear variables set to zero.
    [lin k] tells whether variable k is the leading one of a linear form. *)
Fixpoint coords_loop (p : Z) (Z1 Z2 elim res : list Z) (dim bs : nat) (lin : nat -> bool) (nv : nat) (n nc dec : nat)
    (acc : list (list Z)) : option (list (list Z)) :=
  match n with
  | O => Some acc
  | S n' =>
      if lin (nv - 2 - nc)%nat then coords_loop p Z1 Z2 elim res dim bs lin nv n' (S nc) (S dec) ([] :: acc)
      else
        let? V := hankel_rhs res dim bs (nc + 2 - dec) in
        let? c := coord_of p Z1 Z2 elim V dim in
        coords_loop p Z1 Z2 elim res dim bs lin nv n' (S nc) dec (c :: acc)
  end.

(** set_param_linear_vars, l.953-1033, apart from the change of elim for nlins = nvars (below). [eqs] are the rows of nv+1 coefficients, used from the last to
    the first while the linear variables are visited from nv-2 down to 0. The degree bound of a coordinate is the length of elim;
    sums are made coefficient by coefficient modulo p. *)
Definition sub_mult (p c : Z) (acc b : list Z) : list Z :=
  map (fun i => ((wrap64 ((p - c) * pc b i) mod p) + pc acc i) mod p) (seq 0 (length acc)).
Definition add_at (p : Z) (a : list Z) (i : nat) (c : Z) : option (list Z) :=
  let? x := nth_error a i in upd a i ((x + c) mod p).
Definition linear_coord (p : Z) (nv : nat) (elim : list Z) (eq : list Z) (coords : list (list Z)) (ind : nat)
    : option (list Z) :=
  let? a := fold_left (fun (acc : option (list Z)) k =>
      let? acc := acc in
      let? c := nth_error eq k in
      if c =? 0 then Some acc else
      let b := if (k =? ind)%nat then acc else nth k coords [] in
      if (length acc <? length b)%nat then None else Some (sub_mult p c acc b))
    (seq 1 (nv - 2)) (Some (repeat 0 (length elim))) in
  let? c1 := nth_error eq (nv - 1) in
  let? a := add_at p a 1 c1 in
  let? c0 := nth_error eq nv in
  let? a := add_at p a 0 c0 in
  nrem p (norm p a) elim.
Fixpoint lupd {A} (l : list A) (i : nat) (x : A) : list A :=
  match l, i with [], _ => [] | _ :: l', O => x :: l' | y :: l', S i' => y :: lupd l' i' x end.
(** [eqs] reversed: the last row first; variables n-1, ..., 0 *)
Fixpoint linear_loop (p : Z) (nv : nat) (elim : list Z) (lin : nat -> bool) (n : nat) (eqs : list (list Z))
    (coords : list (list Z)) : option (list (list Z)) :=
  match n with
  | O => Some coords
  | S ind =>
      if lin ind then
        match eqs with
        | [] => None
        | eq :: eqs' => let? c := linear_coord p nv elim eq coords ind in
                        linear_loop p nv elim lin ind eqs' (lupd coords ind c)
        end
      else linear_loop p nv elim lin ind eqs coords
  end.

(** nmod_fglm_compute_trace_data, l.1510-1690, in the branch taken when the degree of the elimination polynomial is the
    dimension of the quotient. generate_sequence_verif divides 2^32 by both constants (l.778-779; the quotients
    are not used). The number nlins of linear forms is the number of rows [eqs]. For nlins = nvars (l.1059, l.962-967) no Hankel
    matrix is inverted, the elimination polynomial is replaced by the last linear form and the last row is skipped; if then a
    variable is not marked as linear, uninitialised polynomials are used (None). *)
Inductive fglm_res := Param (elim : list Z) (coords : list (list Z)) | TooLarge | Singular | Special | NotShape.
Definition fglm (k : kernel) (p : Z) (sqf : list Z -> bool) (sqpart : list Z -> list Z) (m : sp_mat)
    (sq : nat -> nat -> Z) (nv bs : nat) (lin : nat -> bool) (eqs : list (list Z)) (v old : list Z) : option fglm_res :=
  if 1518500213 <=? p then Some TooLarge else
  if (red64_of p =? 0) || (red32_of p =? 0) then None else
  let D := m_ncols m in
  let? res := gen_res k p m sq nv bs v old in
  let? pts := gen_pts D bs res in
  let? Be := compute_minpoly p sqf sqpart D pts in
  let elim := snd Be in
  if negb (ndeg elim =? Z.of_nat D) then Some NotShape else
  if (length eqs =? nv)%nat then
    if negb (forallb lin (seq 0 (nv - 1))) then None else
    let? c0 := nth_error (last eqs []) nv in
    let? cs := linear_loop p nv [c0; 1] lin (nv - 1) (rev (firstn (nv - 1) eqs)) (repeat [] (nv - 1)) in
    Some (Param [c0; 1] cs)
  else
  let? h := invert_hankel p pts D in
  match h with
  | HSingular => Some Singular
  | HSpecial => Some Special
  | HInv Z1 Z2 =>
      let? cs := coords_loop p Z1 Z2 elim res D bs lin nv (nv - 1) 0 0 [] in
      let? cs := linear_loop p nv elim lin (nv - 1) (rev eqs) cs in
      Some (Param elim cs)
  end.
