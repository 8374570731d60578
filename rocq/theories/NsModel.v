(** The branch of the change of order taken when the elimination polynomial is not squarefree of full degree: the parametrisation of
    "the radical", its verification, and what the caller does with the result.
    Sources: /repo/src/fglm/fglm_core.c generate_sequence_verif l.780-788 and l.805-813, invert_table_polynomial l.1116-1153,
    divide_table_polynomials l.1156-1190, compute_parametrizations_non_shape_position_case l.1228-1360, nmod_fglm_compute_trace_data
    l.1645-1690; /repo/src/msolve/msolve.c check_and_set_vars_squared_in_monomial_basis l.888-911, initial_modular_step l.1543-1665,
    msolve_trace_qq l.2087-2155.
    Simplifications: printing, timing and debugging output are left out. rand() is a parameter. FLINT's xgcd is a parameter. *)
From Coq Require Import ZArith NArith Arith List Bool.
From Verif Require Import MonoSpec MonoModel GbSpec HilbModel F4Model FpSpec ModInvModel NmodModel BmModel FglmModel BuildModel NfModel StepModel.
Import ListNotations.
Open Scope Z_scope.

(** msolve.c l.888-911: for every variable but the last, the place of its square among the monomials of the basis, or 0 *)
Definition square_of (m : mono) : option nat :=
  if (mdeg m =? 2)%N then find (fun j => (ex m j =? 2)%N) (seq 0 (length m - 1)) else None.
Fixpoint squvars_from (i : nat) (lmb : list mono) (squ : nat -> nat) : nat -> nat :=
  match lmb with
  | [] => squ
  | m :: r => squvars_from (S i) r (match square_of m with Some j => fun q => if (q =? j)%nat then i else squ q | None => squ end)
  end.
Definition squvars (lmb : list mono) : nat -> nat := squvars_from 0 lmb (fun _ => 0%nat).

(** fglm_core.c l.780-788, l.805-813: the j-th column of the second half of the table holds the squares of the j-th variable, counted
    downwards from x_(n-1), that is not leading in a linear form. When there is no such variable the code reads linvars[-1]; this
    does not happen when the block has at most one column more than there are such variables. *)
Definition column_var (nv : nat) (lin : nat -> bool) (j : nat) : nat := nth (j - 1) (rev (filter (fun q => negb (lin q)) (seq 0 (nv - 1)))) 0%nat.
(** the i-th vector, as in [seq_loop] *)
Fixpoint vec_at (k : kernel) (p : Z) (m : sp_mat) (n : nat) (v old : list Z) : option (list Z) :=
  match n with O => Some v | S n' => let? v' := mult_vec k p m old v in vec_at k p m n' v' v end.
Definition square_entry (k : kernel) (p : Z) (m : sp_mat) (squ : nat -> nat) (nv : nat) (lin : nat -> bool) (v old : list Z) (i j : nat) : Z :=
  match vec_at k p m i v old with Some u => nth (squ (column_var nv lin j)) u 0 | None => 0 end.

(** The table entries of one column as a polynomial, highest index first, times V, without the len lowest coefficients, where len is the
    degree of V. l.1126-1146, l.1168-1185. *)
Definition column_poly (p : Z) (len : nat) (f : nat -> option Z) : option (list Z) :=
  let? c := omap (fun i => f (len - i - 1)%nat) (seq 0 len) in Some (norm p c).
Definition numerator (p : Z) (V R0 : list Z) : list Z := skipn (length V - 1) (nmul p R0 V).
Definition tab (res : list Z) (bs i j : nat) : option Z := nth_error res (i * bs + j).
(** invert_table_polynomial: the numerator, then [xg elim numerator] = (gcd, cofactor, cofactor). Result: whether the gcd is constant, and the
    second cofactor *)
Definition invert_table (p : Z) (xg : list Z -> list Z -> list Z * list Z * list Z) (V elim res : list Z) (bs nc : nat) (lambda : Z)
    : option (bool * list Z) :=
  let? R0 := column_poly p (length V - 1) (fun i =>
      if lambda =? 0 then tab res bs i nc else
      let? a := tab res bs i 0 in let? b := tab res bs i nc in Some ((b + wrap64 (lambda * a) mod p) mod p)) in
  let '(g, _, t) := xg elim (numerator p V R0) in Some (ndeg g =? 0, t).
(** divide_table_polynomials *)
Definition divide_table (p : Z) (V elim Z2 res : list Z) (D bs nc : nat) (lambda : Z) : option (list Z) :=
  let? R0 := column_poly p (length V - 1) (fun i =>
      if lambda =? 0 then tab res bs i nc else
      let? a := tab res bs i nc in let? b := tab res bs (D + i) nc in Some ((b + wrap64 (lambda * a) mod p) mod p)) in
  nrem p (nmul p (numerator p V R0) Z2) elim.
Definition nneg (p : Z) (a : list Z) : list Z := norm p (popp a).
(** l.1255-1295: the coordinates nv-2, ..., 0. [al n] is the number of coefficients there are after nmod_poly_fit_length(coord, n): at least n. When
    the coordinate is zero the code writes its coefficients 0 and 1 after asking for length elim - 1 of them (l.1262-1267). *)
Fixpoint ns_coords (p : Z) (al : nat -> nat) (V elim Z2 res : list Z) (D bs : nat) (lin : nat -> bool) (nv n nc dec : nat) (acc : list (list Z))
    : option (list (list Z)) :=
  match n with
  | O => Some acc
  | S n' =>
      if lin (nv - 2 - nc)%nat then ns_coords p al V elim Z2 res D bs lin nv n' (S nc) (S dec) ([] :: acc)
      else
        let? r := divide_table p V elim Z2 res D bs (nc + 1 - dec) 0 in
        if (length r =? 0)%nat && (al (length elim - 1)%nat <? 2)%nat then None else
        ns_coords p al V elim Z2 res D bs lin nv n' (S nc) dec (nneg p r :: acc)
  end.
(** l.1297-1352: the verification. [lam nc] is 1 + rand() % (prime - 1). The result of the second inversion is not looked at. *)
Fixpoint ns_verify (p : Z) (xg : list Z -> list Z -> list Z * list Z * list Z) (V elim res : list Z) (D bs : nat) (lin : nat -> bool)
    (squ : nat -> nat) (lam : nat -> Z) (cs : list (list Z)) (nv n nc dec : nat) (ok : bool) : option bool :=
  match n with
  | O => Some ok
  | S n' =>
      let q := (nv - 2 - nc)%nat in
      if lin q then ns_verify p xg V elim res D bs lin squ lam cs nv n' (S nc) (S dec) ok
      else if (squ q =? 0)%nat then ns_verify p xg V elim res D bs lin squ lam cs nv n' (S nc) dec ok
      else
        let? it := invert_table p xg V elim res bs (nc + 1 - dec) (lam nc) in
        let? r := divide_table p V elim (snd it) res D bs (nc + 1 - dec) (lam nc) in
        ns_verify p xg V elim res D bs lin squ lam cs nv n' (S nc) dec
          (ok && if list_eq_dec Z.eq_dec (nth q cs []) (nneg p r) then true else false)
  end.
(** set_param_linear_vars, l.953-1033, with the change of elim for nlins = nvars *)
Definition set_linear (p : Z) (nv : nat) (lin : nat -> bool) (eqs : list (list Z)) (elim : list Z) (cs : list (list Z))
    : option (list Z * list (list Z)) :=
  if (length eqs =? nv)%nat then
    let? c0 := nth_error (last eqs []) nv in
    let? cs := linear_loop p nv [c0; 1] lin (nv - 1) (rev (firstn (nv - 1) eqs)) cs in Some ([c0; 1], cs)
  else let? cs := linear_loop p nv elim lin (nv - 1) (rev eqs) cs in Some (elim, cs).
(** compute_parametrizations_non_shape_position_case with verif = 1; [ok] is false when right_param < nvars *)
Inductive ns_res := NsSingular | NsParam (ok : bool) (elim : list Z) (cs : list (list Z)).
Definition non_shape (p : Z) xg (al : nat -> nat) (V elim res : list Z) (D bs : nat) (lin : nat -> bool) (squ : nat -> nat) (lam : nat -> Z)
    (nv : nat) (eqs : list (list Z)) : option ns_res :=
  let? it := invert_table p xg V elim res bs 0 0 in
  if negb (fst it) then Some NsSingular else
  let? cs := ns_coords p al V elim (snd it) res D bs lin nv (nv - 1) 0 0 [] in
  let? ok := ns_verify p xg V elim res D bs lin squ lam cs nv (nv - 1) 0 0 true in
  let? ec := set_linear p nv lin eqs elim cs in
  Some (NsParam ok (fst ec) (snd ec)).

(** nmod_fglm_compute_trace_data with both branches. The first part is [fglm]; when its answer is NotShape the table is the one computed
    there, and it is computed again here. V1 is the polynomial of compute_minpoly l.943-948. *)
Inductive all_res := Shape (r : fglm_res) | NonShape (r : ns_res).
Definition fglm_all (k : kernel) (p : Z) (sqf : list Z -> bool) (sqpart : list Z -> list Z) xg (al : nat -> nat) (m : sp_mat)
    (squ : nat -> nat) (lam : nat -> Z) (nv bs : nat) (lin : nat -> bool) (eqs : list (list Z)) (v old : list Z) : option all_res :=
  let sq := square_entry k p m squ nv lin v old in
  let? r := fglm k p sqf sqpart m sq nv bs lin eqs v old in
  match r with
  | NotShape =>
      let? res := gen_res k p m sq nv bs v old in
      let? pts := gen_pts (m_ncols m) bs res in
      let? Be := compute_minpoly p sqf sqpart (m_ncols m) pts in
      let V := if (length (bV1 (fst Be)) =? 1)%nat then [0; 1] else bV1 (fst Be) in
      let? r := non_shape p xg al V (snd Be) res (m_ncols m) bs lin squ lam nv eqs in
      Some (NonShape r)
  | r => Some (Shape r)
  end.

(** From the basis to the return code: initial_modular_step and msolve_trace_qq over a prime field with print_gb = 0. [round] is whether the
    counter is different from 0: it starts at -1 and is increased each time the answer is Squares. *)
Inductive answer := AEmpty | APositive | AParam (elim : list Z) (cs : list (list Z)) | AFail | ASquares.
Record env2 := { e2_k : kernel; e2_sqf : list Z -> bool; e2_sqpart : list Z -> list Z; e2_xg : list Z -> list Z -> list Z * list Z * list Z;
                 e2_al : nat -> nat; e2_lam : nat -> Z; e2_unstable : Z; e2_v : nat -> list Z; e2_old : nat -> list Z }.
Definition answer_of (round : bool) (nv D : nat) (squ : nat -> nat) (r : all_res) : option answer :=
  let finish elim cs :=
    if negb (ndeg elim =? Z.of_nat D) && round && existsb (fun i => (squ i =? 0)%nat) (seq 0 (nv - 1)) then ASquares else AParam elim cs in
  match r with
  | Shape (Param elim cs) => Some (finish elim cs)
  | NonShape (NsParam true elim cs) => Some (finish elim cs)
  | NonShape (NsParam false _ _) => Some AFail
  | NonShape NsSingular => Some AFail
  | Shape _ => None
  end.
(** the branches that are not modelled here, and those where a null pointer is read (Singular and TooLarge leave success = 1), are None *)
Definition basis_answer (c : config) (e : env2) (fuel : nat) (round : bool) (G : list poly) : F4Model.res answer :=
  let nv := o_nv (c_o c) in
  let lms := lead_monos G in
  let! _ := when (forallb fits lms) in
  if single_constant nv lms then F4Model.Ok AEmpty else
  let! (nl, lv, eqs) := of_opt (check_and_set_linear_poly nv lms G) in
  if has_dimension_zero nv lms then
    match monomial_basis fuel nv lms with
    | HilbModel.Ok (Some lmb) =>
        let! mm := of_opt (build_matrixn nv (c_p c) (e2_unstable e) (mono_nf c fuel G) lmb lms G) in
        match mm with
        | None => F4Model.Ok AFail
        | Some m =>
            let D := length lmb in
            let! r := of_opt (fglm_all (e2_k e) (c_p c) (e2_sqf e) (e2_sqpart e) (e2_xg e) (e2_al e) m (squvars lmb) (e2_lam e) nv (nv - nl)
                                   (fun k => negb (nth k lv 0 =? 0)%nat) eqs (e2_v e D) (e2_old e D)) in
            of_opt (answer_of round nv D (squvars lmb) r)
        end
    | HilbModel.Ok None => Undef
    | HilbModel.Bad => Undef
    | HilbModel.NoFuel => More
    end
  else F4Model.Ok APositive.
Definition field_answer (c : config) (e : env2) (fuel : nat) (round : bool) (F : list poly) : F4Model.res answer :=
  let! G := core_f4 c true fuel F in basis_answer c e fuel round G.
