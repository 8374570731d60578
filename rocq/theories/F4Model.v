(** Model of the F4 engine over a prime field: pair update, pair selection, symbolic preprocessing, conversion to a
    matrix and back, redundancy, final reduction and the main loop. Sources: /repo/src/neogb/f4.c, update.c, symbol.c,
    convert.c, order.c, la_ff_{8,16,32}.c. Simplifications, for the whole file: a monomial is its exponent list instead
    of an index into a hash table (C13, C14: equal index if and only if equal exponents; divisor masks never reject a
    divisor, C15); array growth, timings, statistics, printing and everything belonging to the tracer (trace_level is
    NO_TRACER) are left out; int32 degrees are unbounded; 32-bit counters do not overflow. *)
From Coq Require Import ZArith NArith Arith List Bool Lia.
From Verif Require Import ModInvModel MonoSpec MonoModel MonoProofs GbSpec LaModel.
Import ListNotations.
Open Scope Z_scope.

(** Result of a computation: a value; a limit of the machine representation is exceeded (an exponent vector whose degree
    does not fit the 16-bit exp_t, data.h l.86, or a matrix with too many columns for the 64-bit accumulators, see
    C18); not finished with the given number of steps; undefined behaviour. *)
Inductive res (A : Type) := Ok (a : A) | Limit | More | Undef.
Arguments Ok {A} a. Arguments Limit {A}. Arguments More {A}. Arguments Undef {A}.
Definition rbind {A B} (x : res A) (f : A -> res B) : res B := match x with Ok a => f a | Limit => Limit | More => More | Undef => Undef end.
Notation "'let!' x := e 'in' b" := (rbind e (fun x => b)) (at level 200, x pattern, e at level 100, b at level 200).
Definition of_opt {A} (x : option A) : res A := match x with Some a => Ok a | None => Undef end.
Fixpoint rmap {A B} (f : A -> res B) (l : list A) : res (list B) :=
  match l with [] => Ok [] | a :: l' => let! b := f a in let! bs := rmap f l' in Ok (b :: bs) end.
Definition when (b : bool) : res unit := if b then Ok tt else Limit.

Notation poly := (list (Z * mono)) (only parsing).
Definition mono_eqb (a b : mono) : bool := if mono_dec a b then true else false.
(** leading monomial: hm[i][OFFSET] *)
Definition lmono (f : poly) : mono := match f with t :: _ => snd t | [] => [] end.
(** hd[].deg, hash.c: total degree *)
Definition tdeg (m : mono) : Z := Z.of_N (mdeg m).
(** all exponents and the degree fit exp_t *)
Definition fits (m : mono) : bool := (mdeg m <? 2 ^ 16)%N.
(** monomial_cmp of the selected order (io.c l.885-925; MonoModel), on the exponent vectors *)
Definition mcmp (o : ordering) (a b : mono) : Z :=
  match monomial_cmp_ev o (lay (o_nev o) a) (lay (o_nev o) b) with Some c => c | None => 0 end.

(** A basis element: hm[i][DEG] and the terms with their coefficients. *)
Record elt := { e_deg : Z; e_pol : list (Z * mono) }.
Definition e_lm (e : elt) : mono := lmono (e_pol e).
(** io.c l.409-429 and convert.c l.676-684: degree of the leading monomial, or the largest degree for an elimination order *)
Definition elt_deg (nev : nat) (f : poly) : Z :=
  match nev with O => tdeg (lmono f) | _ => fold_right (fun t d => Z.max (tdeg (snd t)) d) 0 f end.
Definition mk_elt (nev : nat) (f : poly) : elt := {| e_deg := elt_deg nev f; e_pol := f |}.

(** spair_t *)
Record spair := { s_lcm : mono; s_g1 : nat; s_g2 : nat; s_deg : Z }.
Definition set_deg (q : spair) (d : Z) : spair := {| s_lcm := s_lcm q; s_g1 := s_g1 q; s_g2 := s_g2 q; s_deg := d |}.

(** bs_t with the counters of md_t that matter: elements 0..ld-1, red, lmps, lo, mltdeg, num_redundant_old, constant.
    num_redundant is the number of elements marked red. *)
Record basis := { b_el : list elt; b_red : list bool; b_lmps : list nat; b_lo : nat; b_mlt : Z; b_nold : nat; b_const : bool }.
Definition isred (red : list bool) (i : nat) : bool := nth i red false.
Definition nred (red : list bool) : nat := count_occ bool_dec red true.

(** prime_monomials, hash.c (C16) *)
Fixpoint coprimeb (a b : mono) : bool :=
  match a, b with x :: a', y :: b' => ((x =? 0)%N || (y =? 0)%N) && coprimeb a' b' | _, _ => true end.

(** update.c l.96-118: the pair of element i and the new element, number bl *)
Definition new_pair (nev : nat) (red : list bool) (bl : nat) (new : elt) (i : nat) (g : elt) : spair :=
  let l := mlcm (e_lm g) (e_lm new) in
  {| s_lcm := l; s_g1 := i; s_g2 := bl;
     s_deg := if isred red i then -1
              else if coprimeb (e_lm g) (e_lm new) then -2
              else match nev with
                   | O => tdeg l
                   | _ => Z.max (tdeg l - tdeg (e_lm g) + e_deg g) (tdeg l - tdeg (e_lm new) + e_deg new)
                   end |}.
Definition new_pairs (nev : nat) (red : list bool) (els : list elt) (new : elt) : list spair :=
  map (fun ig => new_pair nev red (length els) new (fst ig) (snd ig)) (combine (seq 0 (length els)) els).

(** l.124-135: an old pair that is not needed any more *)
Definition kill_old (pp : list spair) (nlm : mono) (q : spair) : res spair :=
  match nth_error pp (s_g1 q), nth_error pp (s_g2 q) with
  | Some a, Some b =>
      Ok (if negb (mono_eqb (s_lcm a) (s_lcm q)) && negb (mono_eqb (s_lcm b) (s_lcm q))
             && (s_deg a <=? s_deg q) && (s_deg b <=? s_deg q) && mdvdb nlm (s_lcm q)
          then set_deg q (-1) else q)
  | _, _ => Undef
  end.

(** spair_cmp_update, order.c l.543-564; the comparison is total on pairs with different gen1, so that the result of
    sort_r is determined; insertion sort *)
Definition upd_le (o : ordering) (a b : spair) : bool :=
  if mono_eqb (s_lcm a) (s_lcm b) then
    if s_deg a =? s_deg b then (s_g1 a <=? s_g1 b)%nat else s_deg a <? s_deg b
  else mcmp o (s_lcm a) (s_lcm b) <=? 0.
Fixpoint insert_by {A} (le : A -> A -> bool) (x : A) (l : list A) : list A :=
  match l with [] => [x] | y :: l' => if le x y then x :: l else y :: insert_by le x l' end.
Definition sort_by {A} (le : A -> A -> bool) (l : list A) : list A := fold_right (insert_by le) [] l.

(** l.139-155: real multiples, i runs over the sorted new pairs *)
Definition mult_step (l : list spair) (i : nat) : list spair :=
  match nth_error l i with
  | None => l
  | Some x =>
      if s_deg x <? 0 then l
      else if existsb (fun y => negb (s_deg y =? -1) && negb (mono_eqb (s_lcm x) (s_lcm y)) && (s_deg y <=? s_deg x)
                                && mdvdb (s_lcm y) (s_lcm x)) (firstn i l)
           then lset l i (set_deg x (-1)) else l
  end.
(** l.158-182: pairs with the same lcm *)
Definition same_step (l : list spair) (i : nat) : list spair :=
  match nth_error l i with
  | None => l
  | Some x =>
      if s_deg x =? -1 then l
      else if s_deg x =? -2 then map (fun y => if mono_eqb (s_lcm y) (s_lcm x) then set_deg y (-1) else y) l
      else if existsb (fun y => negb (s_deg y =? -1) && (s_deg y <=? s_deg x) && mono_eqb (s_lcm x) (s_lcm y)) (firstn i l)
           then lset l i (set_deg x (-1)) else l
  end.
Definition steps (f : list spair -> nat -> list spair) (l : list spair) : list spair := fold_left f (seq 0 (length l)) l.

(** l.200-214: elements that become redundant *)
Definition mark_red (els : list elt) (red : list bool) (lmps : list nat) (mlt : Z) (new : elt) : list bool :=
  if e_deg new <? mlt then
    map (fun ir => snd ir ||
           (existsb (Nat.eqb (fst ir)) lmps &&
            match nth_error els (fst ir) with
            | Some g => mdvdb (e_lm new) (e_lm g) && (e_deg new - tdeg (e_lm new) <=? e_deg g - tdeg (e_lm g))
            | None => false
            end)) (combine (seq 0 (length red)) red)
  else red.

(** insert_and_update_spairs, update.c l.64-219 *)
Definition insert_pairs (o : ordering) (b : basis) (ps : list spair) (new : elt) : res (basis * list spair) :=
  let pp := new_pairs (o_nev o) (b_red b) (b_el b) new in
  let mlt := Z.max (b_mlt b) (e_deg new) in
  let! _ := when (forallb (fun q => fits (s_lcm q)) pp) in
  let! old := rmap (kill_old pp (e_lm new)) ps in
  let nw := steps same_step (steps mult_step (sort_by (upd_le o) pp)) in
  Ok ({| b_el := b_el b ++ [new]; b_red := mark_red (b_el b) (b_red b) (b_lmps b) mlt new ++ [false];
         b_lmps := b_lmps b; b_lo := b_lo b; b_mlt := mlt; b_nold := b_nold b; b_const := b_const b |},
      filter (fun q => 0 <=? s_deg q) (old ++ nw)).
Fixpoint insert_all (o : ordering) (b : basis) (ps : list spair) (news : list elt) : res (basis * list spair) :=
  match news with
  | [] => Ok (b, ps)
  | new :: r => let! (b', ps') := insert_pairs o b ps new in insert_all o b' ps' r
  end.
(** update_basis_f4, l.275-352 *)
Definition update_basis (o : ordering) (b : basis) (ps : list spair) (news : list elt) : res (basis * list spair) :=
  let! (b, ps) := insert_all o b ps news in
  let keep := fun i => negb (isred (b_red b) i) in
  let lmps := if (o_mo o =? 0)%nat && (b_nold b <? nred (b_red b))%nat then filter keep (b_lmps b) else b_lmps b in
  Ok ({| b_el := b_el b; b_red := b_red b; b_lmps := lmps ++ filter keep (seq (b_lo b) (length (b_el b) - b_lo b));
         b_lo := length (b_el b); b_mlt := b_mlt b; b_nold := nred (b_red b); b_const := b_const b |}, ps).

(** The parts of a run that are not determined by the input: the order in which sort_r leaves pairs that compare equal,
    the value read behind the last pair (symbol.c l.270), the schedule of the linear algebra; each may change from round
    to round. mnsel is positive (io.c l.862-866). *)
Record config := { c_o : ordering; c_k : kern; c_p : Z; c_mnsel : nat; c_stale : nat -> mono;
                   c_sort : nat -> list spair -> list spair; c_sched : nat -> nat -> nat -> list nat }.

(** spair_cmp: spair_cmp_be for elimination orders, spair_cmp_deglex for lex, spair_cmp_drl otherwise
    (order.c l.336, 566, 829; io.c l.885-925) as a Boolean a <= b *)
Definition sp_le (o : ordering) (a b : spair) : bool :=
  if (0 <? o_nev o)%nat then (if s_deg a =? s_deg b then mcmp o (s_lcm a) (s_lcm b) <=? 0 else s_deg a <? s_deg b)
  else if (o_mo o =? 1)%nat then
    (if tdeg (s_lcm a) =? tdeg (s_lcm b) then mcmp o (s_lcm a) (s_lcm b) <=? 0 else tdeg (s_lcm a) <? tdeg (s_lcm b))
  else mcmp o (s_lcm a) (s_lcm b) <=? 0.

(** symbol.c l.252-257 *)
Fixpoint npairs (mdeg : Z) (l : list spair) : nat :=
  match l with [] => O | q :: l' => if mdeg <? s_deg q then O else S (npairs mdeg l') end.
(** l.268-272: [while (nps < npd && ps[nps+1].lcm == lcm) nps++]; cnt = npd - nps *)
Fixpoint more_pairs (stale : mono) (l : list spair) (lcm : mono) (cnt nps : nat) : nat :=
  match cnt with
  | O => nps
  | S c => let x := match nth_error l (S nps) with Some q => s_lcm q | None => stale end in
           if mono_eqb x lcm then more_pairs stale l lcm c (S nps) else nps
  end.
Definition nselect (mnsel : nat) (stale : mono) (l : list spair) : nat :=
  match l with
  | [] => O
  | q :: _ => let npd := npairs (s_deg q) l in
              if (mnsel <? npd)%nat then
                match nth_error l mnsel with
                | Some x => more_pairs stale l (s_lcm x) (npd - mnsel) mnsel
                | None => npd
                end
              else npd
  end.

(** l.296-302: runs of pairs with the same lcm *)
Fixpoint runs (l : list spair) : list (mono * list nat) :=
  match l with
  | [] => []
  | q :: l' => match runs l' with
               | (m, gs) :: r => if mono_eqb (s_lcm q) m then (m, s_g1 q :: s_g2 q :: gs) :: r
                                 else (s_lcm q, [s_g1 q; s_g2 q]) :: (m, gs) :: r
               | [] => [(s_lcm q, [s_g1 q; s_g2 q])]
               end
  end.
(** l.303-305 and 341-345: sorted generators, equal ones skipped *)
Fixpoint skip_equal (prev : nat) (l : list nat) : list nat :=
  match l with [] => [] | x :: l' => if (x =? prev)%nat then skip_equal prev l' else x :: skip_equal x l' end.
Definition gens_of (l : list nat) : list nat :=
  match sort_by Nat.leb l with [] => [] | x :: l' => x :: skip_equal x l' end.

(** multiplied_poly_to_matrix_row, convert.c; insert_multiplied_poly_in_hash_table, hash.c (C14): the product of the
    polynomial with the monomial u; the products must fit *)
Definition mul_row (u : mono) (f : poly) : res poly :=
  let r := map (fun t => (fst t, mmul u (snd t))) f in
  let! _ := when (forallb (fun t => fits (snd t)) r) in Ok r.
Definition row_at (els : list elt) (m : mono) (i : nat) : res poly :=
  let! g := of_opt (nth_error els i) in mul_row (mquo m (e_lm g)) (e_pol g).

(** secondary hash table: monomials in the order of insertion *)
Definition mem (m : mono) (l : list mono) : bool := existsb (mono_eqb m) l.
Definition sht_add (sht : list mono) (m : mono) : list mono := if mem m sht then sht else sht ++ [m].
Definition sht_row (sht : list mono) (r : poly) : list mono := fold_left (fun s t => sht_add s (snd t)) r sht.
Definition sht_rows (sht : list mono) (rs : list poly) : list mono := fold_left sht_row rs sht.

(** l.289-383: rows of the selected pairs; for every lcm the rows in the order of creation *)
Definition run_rows (els : list elt) (run : mono * list nat) : res (list poly) := rmap (row_at els (fst run)) (gens_of (snd run)).

(** find_multiplied_reducer, l.491-554: first element of lmps whose leading monomial divides m *)
Fixpoint find_red (els : list elt) (lmps : list nat) (m : mono) : res (option nat) :=
  match lmps with
  | [] => Ok None
  | i :: r => let! g := of_opt (nth_error els i) in if mdvdb (e_lm g) m then Ok (Some i) else find_red els r m
  end.
(** symbolic_preprocessing, l.556-630. [skip]: monomials with idx set at the start; they are among the first [oes] entries;
    result: hash table, monomials with idx = 2, reducer rows *)
Fixpoint symb (fuel : nat) (els : list elt) (lmps : list nat) (skip : list mono) (oes i : nat) (sht leads : list mono) (rr : list poly)
  : res (list mono * list mono * list poly) :=
  match nth_error sht i with
  | None => Ok (sht, leads, rr)
  | Some m =>
      match fuel with
      | O => More
      | S f =>
          if (i <? oes)%nat && mem m skip then symb f els lmps skip oes (S i) sht leads rr
          else let! o := find_red els lmps m in
               match o with
               | None => symb f els lmps skip oes (S i) sht leads rr
               | Some g => let! r := row_at els m g in symb f els lmps skip oes (S i) (sht_row sht r) (m :: leads) (rr ++ [r])
               end
      end
  end.

(** convert_hashes_to_columns, convert.c l.299-430; hcm_cmp: monomials with idx = 2 first, decreasing in both parts; all
    monomials are different, so that the order is determined *)
Definition msort (o : ordering) (l : list mono) : list mono := sort_by (fun a b => 0 <=? mcmp o a b) l.
Definition columns (o : ordering) (sht leads : list mono) : list mono * list mono :=
  (msort o (filter (fun m => mem m leads) sht), msort o (filter (fun m => negb (mem m leads)) sht)).
Fixpoint pos (m : mono) (l : list mono) : nat := match l with [] => O | x :: l' => if mono_dec x m then O else S (pos m l') end.
Definition to_row (hcm : list mono) (f : poly) : list (nat * Z) := map (fun t => (pos (snd t) hcm, fst t)) f.
(** sort_matrix_rows_decreasing / _increasing, order.c l.29-81, on rows with different leading columns *)
Definition hcol (r : list (nat * Z)) : nat := match r with t :: _ => fst t | [] => O end.
Definition rows_dec (l : list (list (nat * Z))) := sort_by (fun a b => (hcol a <=? hcol b)%nat) l.
Definition rows_inc (l : list (list (nat * Z))) := sort_by (fun a b => (hcol b <=? hcol a)%nat) l.
Definition cols_fit (k : kern) (p : Z) (n : nat) : bool :=
  match k with K31 => true | _ => (Z.of_nat n + 1) * (p * p) <=? 2 ^ 63 end.
(** columns back to monomials, convert.c l.672-675 *)
Definition of_row (hcm : list mono) (r : list (nat * Z)) : res poly :=
  rmap (fun t => let! m := of_opt (nth_error hcm (fst t)) in Ok (snd t, m)) r.

(** One round of core_f4 (f4.c l.695-712): select_spairs_by_minimal_degree (symbol.c l.198-400), symbolic_preprocessing,
    compute_new_elements (f4.c l.405-470) *)
Definition round_matrix (c : config) (fuel r : nat) (b : basis) (ps : list spair)
  : res (list spair * (list mono * list mono) * (list poly * list poly)) :=
  let ps := c_sort c r ps in
  let n := nselect (c_mnsel c) (c_stale c r) ps in
  let rs := runs (firstn n ps) in
  let! rows := rmap (run_rows (b_el b)) rs in
  let! rr0 := rmap (fun l => of_opt (hd_error l)) rows in
  let tr := concat (map (@tl _) rows) in
  let sht := sht_rows [] (concat rows) in
  let! (sht', leads, rr) := symb fuel (b_el b) (b_lmps b) (map fst rs) (length sht) 0 sht (map fst rs) rr0 in
  Ok (skipn n ps, columns (c_o c) sht' leads, (rr, tr)).
Definition round_rows (c : config) (r : nat) (cols : list mono * list mono) (rr tr : list poly) : res (list poly) :=
  let hcm := fst cols ++ snd cols in
  let! _ := when (cols_fit (c_k c) (c_p c) (length hcm)) in
  let rrs := rows_dec (map (to_row hcm) rr) in
  let! l := of_opt (echelon (c_k c) (c_p c) (length (fst cols)) (length hcm) (nth_error rrs) (map (to_row hcm) tr)
                      (c_sched c r (length hcm) (length tr))) in
  rmap (of_row hcm) (rev l).
Definition round (c : config) (fuel r : nat) (b : basis) (ps : list spair) : res (basis * list spair) :=
  let! (ps, cols, (rr, tr)) := round_matrix c fuel r b ps in
  let! news := round_rows c r cols rr tr in
  let els := map (mk_elt (o_nev (c_o c))) news in
  let b' := {| b_el := b_el b; b_red := b_red b; b_lmps := b_lmps b; b_lo := b_lo b; b_mlt := b_mlt b; b_nold := b_nold b;
               b_const := b_const b || existsb (fun e => e_deg e =? 0) els |} in
  update_basis (c_o c) b' ps els.

(** f4.c l.692-718; update, update.c l.354-365: done when a constant was found or no pair is left *)
Definition done (b : basis) (ps : list spair) : bool := b_const b || match ps with [] => true | _ => false end.
Fixpoint f4_loop (c : config) (fuel r : nat) (b : basis) (ps : list spair) : res basis :=
  if done b ps then Ok b else
  match fuel with
  | O => More
  | S f => let! (b', ps') := round c fuel r b ps in f4_loop c f (S r) b' ps'
  end.

(** process_redundant_elements, f4.c l.478-516: i runs over lmps *)
Definition red_step (els : list elt) (lmps : list nat) (red : list bool) (i : nat) : list bool :=
  match nth_error lmps i with
  | None => red
  | Some k =>
      let lmk := match nth_error els k with Some g => e_lm g | None => [] end in
      if existsb (fun j => negb (j =? i)%nat &&
                   match nth_error lmps j with
                   | Some kj => negb (isred red kj) && match nth_error els kj with Some g => mdvdb (e_lm g) lmk | None => false end
                   | None => false
                   end) (seq 0 (length lmps))
      then lset red k true else red
  end.
Definition final_lmps (b : basis) : list nat :=
  let red := fold_left (red_step (b_el b) (b_lmps b)) (seq 0 (length (b_lmps b))) (b_red b) in
  filter (fun i => negb (isred red i)) (b_lmps b).

(** exact_sparse_reduced_echelon_form in the final reduction, la_ff_32.c l.2588-2763 with in_final_reduction_step = 1: one
    thread, reducers at their leading columns, every row reduced by all pivots known so far, no inter-reduction. A row
    reduced to zero would be a null pointer in convert.c l.672; a column that has a pivot already would send the row back
    into the loop. *)
Fixpoint final_rows (k : kern) (p : Z) (ncols : nat) (pivs : nat -> option (list (nat * Z))) (tr : list (list (nat * Z))) : res (list (list (nat * Z))) :=
  match tr with
  | [] => Ok []
  | r :: tr' =>
      match r with
      | [] => Undef
      | t :: _ =>
          let! dr := of_opt (scatter ncols r) in
          let! s := of_opt (reduce_known k p pivs 0 ncols (fst t) dr) in
          match snd s with
          | Some ((c0, x0) :: q) =>
              let! r' := (if x0 =? 1 then Ok ((c0, x0) :: q) else of_opt (normalize_row k p ((c0, x0) :: q))) in
              match pivs c0 with
              | Some _ => Undef
              | None => let! l := final_rows k p ncols (pset pivs c0 r') tr' in Ok (r' :: l)
              end
          | _ => Undef
          end
      end
  end.
Definition known (rr : list (list (nat * Z))) : nat -> option (list (nat * Z)) :=
  fun c => find (fun r => (hcol r =? c)%nat) rr.
(** reduce_final_basis, f4.c l.567-630 *)
Definition reduce_final (c : config) (fuel : nat) (els : list elt) (lmps : list nat) : res (list poly) :=
  let! tr := rmap (fun i => let! g := of_opt (nth_error els i) in Ok (e_pol g)) lmps in
  let sht := sht_rows [] tr in
  let! (sht', _, rr) := symb fuel els lmps (map lmono tr) (length sht) 0 sht [] [] in
  let hcm := msort (c_o c) sht' in
  let! _ := when (cols_fit (c_k c) (c_p c) (length hcm)) in
  let! l := final_rows (c_k c) (c_p c) (length hcm) (known (map (to_row hcm) rr)) (rows_inc (map (to_row hcm) tr)) in
  rmap (of_row hcm) l.

(** normalize_initial_basis (basis.c l.249-374, LaModel) on the coefficients of a generator *)
Definition normalize_poly (k : kern) (p : Z) (f : poly) : res poly :=
  let! r := of_opt (normalize_initial k p (combine (seq 0 (length f)) (map fst f))) in
  Ok (combine (map snd r) (map snd f)).

(** core_f4, f4.c l.667-732, with initialize_f4 l.341-403 (no copy of the input: fc is the characteristic of the input) *)
Definition core_f4 (c : config) (reduce_gb : bool) (fuel : nat) (F : list poly) : res (list poly) :=
  let! F' := rmap (normalize_poly (c_k c) (c_p c)) F in
  let b0 := {| b_el := []; b_red := []; b_lmps := []; b_lo := O; b_mlt := 0; b_nold := O; b_const := false |} in
  let! (b, ps) := update_basis (c_o c) b0 [] (map (mk_elt (o_nev (c_o c))) F') in
  let! b := f4_loop c fuel O b ps in
  let lmps := final_lmps b in
  if reduce_gb then reduce_final c fuel (b_el b) lmps
  else rmap (fun i => let! g := of_opt (nth_error (b_el b) i) in Ok (e_pol g)) lmps.
