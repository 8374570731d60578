(** Model of the exact sparse-dense linear algebra over prime fields (option -l 1). Sources: /repo/src/neogb/la_ff_32.c
    l.30-54, 2040-2297, 3271-3500, 3822-3899, 4105-4160; la_ff_16.c l.33-66, 595-718, 1393-1570; la_ff_8.c l.33-66, 743-866,
    1524-1700. *)
From Coq Require Import ZArith Arith List Bool Lia.
From Verif Require Import ModInvModel LaModel.
Import ListNotations.
Open Scope Z_scope.

(** ** Reduction of the rows by the known pivots: sparse_AB_CD_linear_algebra_ff_* *)

(** reduce_dense_row_by_old_pivots_* (la_ff_32.c l.2040-2174): the loop over the columns below ncl is the column loop of the
    sparse variants; then the entries from column ncl on, reduced, are stored in an array of ncr entries. None is the NULL
    result of a zero row (l.2101-2104). *)
Definition old_entry (k : kern) (p d : Z) : Z := (if d =? 0 then d else Z.rem d p) mod 2 ^ cfbits k.
Definition reduce_old (k : kern) (p : Z) (pivs : nat -> option srow) (ncl dpiv : nat) (dr : list Z) : option (option (list Z)) :=
  let? s := red_loop k p pivs (ncl - dpiv) dpiv dr 0 in
  let row := map (old_entry k p) (skipn ncl (fst s)) in
  Some (if forallb (Z.eqb 0) row then None else Some row).
(** l.3319: sc = ds[0]; the 16 bit function starts at column 0 (la_ff_16.c l.1414). *)
Definition start_col (k : kern) (t : nat * Z) : nat := match k with K16 => O | _ => fst t end.
(** The parallel loop l.3299-3324: the rows do not interact, so one result per row; l.3336-3345 removes the NULL entries. *)
Fixpoint ab_cd (k : kern) (p : Z) (ncl ncols : nat) (rr : nat -> option srow) (tr : list srow) : option (list (list Z)) :=
  match tr with
  | [] => Some []
  | r :: tr' =>
      match r with
      | [] => None
      | t :: _ =>
          let? dr := scatter ncols r in
          let? o := reduce_old k p rr ncl (start_col k t) dr in
          let? l := ab_cd k p ncl ncols rr tr' in
          Some (match o with None => l | Some row => row :: l end)
      end
  end.

(** ** Dense rows *)

(** The entries of a pivot array of column c, with their columns. The loops read ncr - c entries (l.2209-2218): an array of
    another length is read past its end, or is not what was allocated. *)
Definition drow (ncr c : nat) (e : list Z) : option srow :=
  if (length e =? ncr - c)%nat then Some (combine (seq c (length e)) e) else None.
(** Body of the column loop of reduce_dense_row_by_dense_new_pivots_* (la_ff_32.c l.2192-2218 and 2250-2282). The same
    arithmetic as for sparse rows, entries in order, the first (ncr - i) % UNROLL one by one and then blocks of UNROLL; the
    entry of the column itself is not reset to 0 afterwards. The Boolean tells whether the column stays. *)
Definition dcol_step (k : kern) (p : Z) (ncr : nat) (pv : option (list Z)) (i : nat) (dr : list Z) : option (list Z * bool) :=
  let? d0 := drd dr i in
  let d := if d0 =? 0 then d0 else Z.rem d0 p in
  let? dr0 := dwr dr i d in
  if d =? 0 then Some (dr0, false) else
  match pv with
  | None => Some (dr0, true)
  | Some e => let? r := drow ncr i e in let? dr1 := apply_row k p d r dr0 in Some (dr1, false)
  end.
(** [np] is the first column that stays; the counter k is nonzero exactly when there is one. *)
Definition np_next (b : bool) (np : option nat) (i : nat) : option nat :=
  match np with Some c => Some c | None => if b then Some i else None end.
(** l.2224-2233: the entries from np on are reduced and copied. *)
Definition dreduce_entries (p : Z) (np : nat) (dr : list Z) : list Z :=
  firstn np dr ++ map (fun d => if d =? 0 then d else Z.rem d p) (skipn np dr).
(** normalize_dense_matrix_row_ff_* (l.30-54): as for sparse rows; row[0] is overwritten by 1 at the end. *)
Definition normalize_dense (k : kern) (p : Z) (e : list Z) : option (list Z) :=
  let? r := normalize_row k p (combine (seq 0 (length e)) e) in Some (map snd r).
Definition monic_dense (k : kern) (p : Z) (e : list Z) : option (list Z) :=
  match e with [] => None | x :: _ => if x =? 1 then Some e else normalize_dense k p e end.
Definition extract (k : kern) (p : Z) (np : nat) (dr : list Z) : option (list Z * list Z) :=
  let dr' := dreduce_entries p np dr in
  let? e := monic_dense k p (map (fun d => d mod 2 ^ cfbits k) (skipn np dr')) in Some (dr', e).

(** ** exact_dense_linear_algebra_ff_* (l.3389-3500) *)
Definition dset (P : nat -> option (list Z)) (c : nat) (e : list Z) : nat -> option (list Z) :=
  fun j => if (j =? c)%nat then Some e else P j.
(** l.3416-3419; a zero row is read past its end. *)
Fixpoint first_nz (row : list Z) : option nat :=
  match row with [] => None | x :: t => if x =? 0 then (let? n := first_nz t in Some (S n)) else Some O end.
(** l.3413-3434: rows whose first column is new become pivots, the others have to be reduced. *)
Fixpoint select (k : kern) (p : Z) (dm : list (list Z)) (nps : nat -> option (list Z)) : option ((nat -> option (list Z)) * list (list Z)) :=
  match dm with
  | [] => Some (nps, [])
  | row :: dm' =>
      let? c := first_nz row in
      match nps c with
      | None => let? e := monic_dense k p (skipn c row) in select k p dm' (dset nps c e)
      | Some _ => let? q := select k p dm' nps in Some (fst q, row :: snd q)
      end
  end.
(** Row states of the parallel loop l.3445-3475. *)
Inductive dstate :=
| DTodo (row : list Z)
| DRed (i : nat) (dr : list Z) (np : option nat)
| DCas (dr : list Z) (np : nat) (e : list Z)
| DZero
| DPiv (c : nat).
Record dshared := { ds_pivs : nat -> option (list Z); ds_rows : list dstate }.
Definition drow_step (k : kern) (p : Z) (ncr : nat) (nps : nat -> option (list Z)) (s : dstate) : option ((nat -> option (list Z)) * dstate) :=
  match s with
  | DTodo row => if (length row =? ncr)%nat then Some (nps, DRed 0 row None) else None
  | DRed i dr np =>
      if (i <? ncr)%nat then
        let? s := dcol_step k p ncr (nps i) i dr in Some (nps, DRed (S i) (fst s) (np_next (snd s) np i))
      else match np with
           | None => Some (nps, DZero)
           | Some c => let? q := extract k p c dr in Some (nps, DCas (fst q) c (snd q))
           end
  | DCas dr c e => match nps c with
                   | None => Some (dset nps c e, DPiv c)
                   | Some _ => Some (nps, DRed c dr None)
                   end
  | DZero => Some (nps, DZero)
  | DPiv c => Some (nps, DPiv c)
  end.
Definition dsys_step (k : kern) (p : Z) (ncr : nat) (t : nat) (s : dshared) : option dshared :=
  match nth_error (ds_rows s) t with
  | None => Some s
  | Some rs => let? q := drow_step k p ncr (ds_pivs s) rs in
               Some {| ds_pivs := fst q; ds_rows := lset (ds_rows s) t (snd q) |}
  end.
Fixpoint dsys_run (k : kern) (p : Z) (ncr : nat) (sched : list nat) (s : dshared) : option dshared :=
  match sched with [] => Some s | t :: ts => let? s' := dsys_step k p ncr t s in dsys_run k p ncr ts s' end.
Definition dfinished (s : dstate) : bool := match s with DZero | DPiv _ => true | _ => false end.

(** ** interreduce_dense_matrix_ff_* (l.3353-3387), columns from right to left. The pivot that is reduced is taken out of
    the array before. [dm[k] = f(.., &k, ..)] assigns to the old or the new column: undefined here when they differ. *)
Fixpoint dred_loop (k : kern) (p : Z) (ncr : nat) (P : nat -> option (list Z)) (cnt i : nat) (dr : list Z) (np : option nat) : option (list Z * option nat) :=
  match cnt with
  | O => Some (dr, np)
  | S c => let? s := dcol_step k p ncr (P i) i dr in
           dred_loop k p ncr P c (S i) (fst s) (np_next (snd s) np i)
  end.
Fixpoint dinterreduce (k : kern) (p : Z) (ncr : nat) (cnt : nat) (P : nat -> option (list Z)) : option (nat -> option (list Z)) :=
  match cnt with
  | O => Some P
  | S c =>
      match P c with
      | None => dinterreduce k p ncr c P
      | Some e =>
          if (length e =? ncr - c)%nat then
            let? s := dred_loop k p ncr (fun j => if (j =? c)%nat then None else P j) (ncr - c) c (repeat 0 c ++ e) None in
            match snd s with
            | None => None
            | Some c' => if (c' =? c)%nat then let? q := extract k p c (fst s) in dinterreduce k p ncr c (dset P c (snd q)) else None
            end
          else None
      end
  end.

(** ** convert_to_sparse_matrix_rows_ff_* (l.3822-3899): columns from right to left, nonzero entries only, the columns
    shifted by ncl. *)
Fixpoint convert_row (ncl c : nat) (e : list Z) : srow :=
  match e with [] => [] | x :: t => if x =? 0 then convert_row ncl (S c) t else ((ncl + c)%nat, x) :: convert_row ncl (S c) t end.
Fixpoint convert_rows (ncl : nat) (P : nat -> option (list Z)) (cnt : nat) : list srow :=
  match cnt with O => [] | S c => match P c with None => convert_rows ncl P c | Some e => convert_row ncl c e :: convert_rows ncl P c end end.

(** exact_sparse_dense_linear_algebra_ff_* (l.4105-4160) for a given schedule of the parallel loop; None when a row is not
    finished or something undefined happens. The number of pivots counted at l.3477-3494 is the number of entries of nps that are
    not NULL, which the inter-reduction keeps: the arrays of np entries at l.3838-3840 are filled exactly. Statistics and memory
    management are left out. *)
Definition dense_echelon (k : kern) (p : Z) (ncl ncols : nat) (rr : nat -> option srow) (tr : list srow) (sched : list nat) : option (list srow) :=
  let ncr := (ncols - ncl)%nat in
  let? dm := ab_cd k p ncl ncols rr tr in
  match dm with
  | [] => Some []
  | _ =>
      let? q := select k p dm (fun _ => None) in
      let? s := dsys_run k p ncr sched {| ds_pivs := fst q; ds_rows := map DTodo (snd q) |} in
      if forallb dfinished (ds_rows s) then
        let? P := dinterreduce k p ncr ncr (ds_pivs s) in Some (convert_rows ncl P ncr)
      else None
  end.
