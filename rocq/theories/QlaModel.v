(** Model of the linear algebra with integer coefficients, /repo/src/neogb/la_qq.c. Integers are unbounded (mpz_t). *)
From Coq Require Import ZArith Arith List Bool Lia.
From Verif Require Import ModInvModel LaModel ImportModel.
Import ListNotations.
Open Scope Z_scope.

(** l.325-334 [mpz_submul(dr[ds[j]], mul2, cfs[j])] for the whole row. The first os = len mod UNROLL terms and the blocks of
    UNROLL are the terms of the row in order; this splitting is treated in LaModel and left out here. *)
Definition submul1 (m : Z) (t : nat * Z) (dr : list Z) : option (list Z) :=
  let? d := drd dr (fst t) in dwr dr (fst t) (d - m * snd t).
Definition submul_row (m : Z) (r : srow) (dr : list Z) : option (list Z) := each (submul1 m) r dr.
(** l.313-319: the entries after column i are multiplied by mul1; entry i itself is not. *)
Definition scale_after (i : nat) (m : Z) (dr : list Z) : list Z := firstn (S i) dr ++ map (Z.mul m) (skipn (S i) dr).
Definition scale_kept (m : Z) (r : srow) : srow := map (fun t => (fst t, m * snd t)) r.

(** One column of reduce_dense_row_by_known_pivots_sparse_qq, l.271-335; the same lines stand in ..._only_ab_qq (l.89-140)
    and ..._ab_first_qq (l.191-243). The entries kept so far are the pair of arrays row/cf, as a list. [None]: division by zero
    or access outside an array. *)
Definition qcol (pv : option srow) (i : nat) (dr : list Z) (kept : srow) : option (list Z * srow) :=
  let? d := drd dr i in
  if d =? 0 then Some (dr, kept)
  else match pv with
  | None => let? dr' := dwr dr i 0 in Some (dr', kept ++ [(i, d)])
  | Some [] => None
  | Some ((c0, x0) :: r') =>
      if x0 =? 0 then None
      else if d mod x0 =? 0 then
        let? dr' := submul_row (d / x0) ((c0, x0) :: r') dr in Some (dr', kept)
      else
        let mul1 := Z.lcm d x0 in
        let mul2 := mul1 / x0 in
        let mul1 := mul1 / d in
        let? dr' := submul_row mul2 ((c0, x0) :: r') (scale_after i mul1 dr) in Some (dr', scale_kept mul1 kept)
  end.
Fixpoint qloop (pivs : nat -> option srow) (cnt i : nat) (dr : list Z) (kept : srow) : option (list Z * srow) :=
  match cnt with O => Some (dr, kept) | S cnt' => let? s := qcol (pivs i) i dr kept in qloop pivs cnt' (S i) (fst s) (snd s) end.
(** reduce_dense_row_by_known_pivots_sparse_qq, l.257-345, run without other threads. The empty list stands for NULL. *)
Definition qreduce (pivs : nat -> option srow) (n dpiv : nat) (dr : list Z) : option srow :=
  let? s := qloop pivs (n - dpiv) dpiv dr [] in Some (snd s).
(** l.142-150: the nonzero entries of the columns from ncl on *)
Definition collect (ncl : nat) (dr : list Z) : srow :=
  filter (fun t => negb (snd t =? 0)) (combine (seq ncl (length dr - ncl)) (skipn ncl dr)).
(** reduce_dense_row_by_known_pivots_sparse_only_ab_qq, l.69-163 *)
Definition qreduce_ab (pivs : nat -> option srow) (ncl dpiv : nat) (dr : list Z) : option srow :=
  let? s := qloop pivs (ncl - dpiv) dpiv dr [] in
  match snd s with [] => Some [] | k => Some (k ++ collect ncl (fst s)) end.

(** remove_content_of_sparse_matrix_row_qq, l.22-67: the loops are those of basis.c l.461-520 (ImportModel), on one row. The
    test for a zero first coefficient made there is not made here; first coefficients of rows are not zero. *)
Definition strip (r : srow) : option srow :=
  let? l := remove_content [map snd r] in
  match l with [cs] => Some (combine (map fst r) cs) | _ => None end.

(** The parallel loop of exact_sparse_reduced_echelon_form_qq, l.543-617, and the same loop of ..._ab_first_qq,
    l.407-478. States of a row: waiting; in the column loop (next column, dense row, entries kept); holding a new row before the
    compare-and-swap; finished with zero; finished with a pivot. After a failed compare-and-swap the row is loaded again
    (l.572-596); the entries before its first column are not cleared there, they are not read any more. *)
Inductive qstate := QTodo (r : srow) | QRed (i : nat) (dr : list Z) (kept : srow) | QCas (r : srow) | QZero | QPiv (c : nat).
Record qshared := { qs_pivs : nat -> option srow; qs_rows : list qstate }.
Definition qstep (n : nat) (pivs : nat -> option srow) (s : qstate) : option ((nat -> option srow) * qstate) :=
  match s with
  | QTodo [] => None
  | QTodo (t :: r) => let? dr := scatter n (t :: r) in Some (pivs, QRed (fst t) dr [])
  | QRed i dr kept =>
      if (i <? n)%nat then let? q := qcol (pivs i) i dr kept in Some (pivs, QRed (S i) (fst q) (snd q))
      else match kept with
      | [] => Some (pivs, QZero)
      | (c, x) :: r => if x =? 1 then Some (pivs, QCas ((c, x) :: r)) else let? r' := strip ((c, x) :: r) in Some (pivs, QCas r')
      end
  | QCas [] => None
  | QCas (t :: r) =>
      match pivs (fst t) with
      | None => Some (pset pivs (fst t) (t :: r), QPiv (fst t))
      | Some _ => let? dr := scatter n (t :: r) in Some (pivs, QRed (fst t) dr [])
      end
  | QZero => Some (pivs, QZero)
  | QPiv c => Some (pivs, QPiv c)
  end.
Definition qsys_step (n t : nat) (s : qshared) : option qshared :=
  match nth_error (qs_rows s) t with
  | None => Some s
  | Some rs => let? q := qstep n (qs_pivs s) rs in Some {| qs_pivs := fst q; qs_rows := lset (qs_rows s) t (snd q) |}
  end.
(** any sequence of row numbers: every number of threads and every distribution of the rows *)
Fixpoint qsys_run (n : nat) (sched : list nat) (s : qshared) : option qshared :=
  match sched with [] => Some s | t :: ts => let? s' := qsys_step n t s in qsys_run n ts s' end.
Definition qfinished (s : qstate) : bool := match s with QZero | QPiv _ => true | _ => false end.
Definition qinit (rr : nat -> option srow) (tr : list srow) : qshared := {| qs_pivs := rr; qs_rows := map QTodo tr |}.

(** l.633-667 (l.460-503 of the other variant): inter-reduction of the new pivots, columns from right to left *)
Fixpoint qinter (ncl n cnt : nat) (pivs : nat -> option srow) : option (list srow) :=
  match cnt with
  | O => Some []
  | S cnt' =>
      let c := (ncl + cnt')%nat in
      match pivs c with
      | None => qinter ncl n cnt' pivs
      | Some [] => None
      | Some (t :: r) =>
          let? dr := scatter n (t :: r) in
          let? s := qreduce (fun j => if (j =? c)%nat then None else pivs j) n (fst t) dr in
          match s with
          | [] => None
          | _ => let? r' := strip s in let? l := qinter ncl n cnt' (pset pivs c r') in Some (r' :: l)
          end
      end
  end.
(** exact_sparse_reduced_echelon_form_qq, l.515-676 *)
Definition qechelon (ncl n : nat) (rr : nat -> option srow) (tr : list srow) (sched : list nat) : option (list srow) :=
  let? s := qsys_run n sched (qinit rr tr) in
  if forallb qfinished (qs_rows s) then qinter ncl n (n - ncl) (drop_old ncl (qs_pivs s)) else None.
(** exact_sparse_reduced_echelon_form_ab_first_qq, l.348-513. The known pivots are first reduced by each other, from the last
    but one to the first, l.371-403; the last one is copied. With no known pivot the index nru-1 is outside the array. *)
Fixpoint ab_rows (ncl n cnt : nat) (pivs : nat -> option srow) : option (nat -> option srow) :=
  match cnt with
  | O => Some pivs
  | S k =>
      match pivs k with
      | None => None
      | Some [] => None
      | Some (t :: r) =>
          let? dr := scatter n (t :: r) in
          let? s := qreduce_ab (fun j => if (j =? k)%nat then None else pivs j) ncl (fst t) dr in
          match s with [] => None | _ => let? r' := strip s in ab_rows ncl n k (pset pivs k r') end
      end
  end.
Definition qechelon_ab (ncl n : nat) (rr : nat -> option srow) (tr : list srow) (sched : list nat) : option (list srow) :=
  match ncl with O => None | S m => let? rr' := ab_rows ncl n m rr in qechelon ncl n rr' tr sched end.

(** interreduce_matrix_rows_qq, l.800-877, called by reduce_basis (f4.c l.254-340) with ncl = 0. A row is the number of a
    coefficient array of the basis and its columns (multiplied_poly_to_matrix_row, hash.c l.1354: multiples of a polynomial have
    its COEFFS). Loading a row swaps the coefficients out of the basis array (l.845-855), which then holds zeros. The rows of
    the result that are NULL are [None]. *)
Definition qload (n : nat) (cols : list nat) (cfs : list Z) : option (list Z) :=
  if (length cols =? length cfs)%nat then scatter n (combine cols cfs) else None.
Definition zeroed (st : nat -> list Z) (i : nat) : nat -> list Z := fun j => if (j =? i)%nat then map (fun _ => 0) (st j) else st j.
Fixpoint ir_loop (n cnt : nat) (src : nat -> option (nat * list nat)) (st : nat -> list Z) (pivs : nat -> option srow) : option (list (option srow)) :=
  match cnt with
  | O => Some []
  | S l =>
      match src l with
      | None => ir_loop n l src st pivs
      | Some (_, []) => None
      | Some (i, sc :: cols) =>
          let? dr := qload n (sc :: cols) (st i) in
          let? s := qreduce pivs n sc dr in
          match s with
          | [] => let? rest := ir_loop n l src (zeroed st i) pivs in Some (None :: rest)
          | _ => let? rest := ir_loop n l src (zeroed st i) (pset pivs l s) in Some (Some s :: rest)
          end
      end
  end.
(** l.824-826: pivs indexed by the first column of the rows *)
Fixpoint ir_src (rows : list (nat * list nat)) (l : nat) : option (nat * list nat) :=
  match rows with
  | [] => None
  | q :: rows' => match ir_src rows' l with
                  | Some q' => Some q'
                  | None => match snd q with c :: _ => if (c =? l)%nat then Some q else None | [] => None end
                  end
  end.
(** the rows in the order in which they are written to mat->tr, from the last place to the first *)
Definition ir_rows (n : nat) (rows : list (nat * list nat)) (st : nat -> list Z) : option (list (option srow)) :=
  ir_loop n n (ir_src rows) st (fun _ => None).
(** followed by convert_sparse_matrix_rows_to_basis_elements (convert.c l.660-760), which reads the length of every row: a
    NULL row is undefined *)
Definition ir_basis (n : nat) (rows : list (nat * list nat)) (st : nat -> list Z) : option (list srow) :=
  let? l := ir_rows n rows st in omap (fun o => o) l.
