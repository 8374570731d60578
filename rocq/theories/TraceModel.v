(** Model of the tracer: learning run of the F4 engine that records which rows and reducers were used, and application of
    the recorded trace modulo another prime. Sources: /repo/src/neogb/f4.c l.341-476, 478-566, 667-732, tools.c l.41-154 and
    183-200, symbol.c l.289-383, 491-630, 632-705, la_ff_32.c l.985-1036, 1649-1694, 2588-2763. Simplifications: those of
    F4Model and LaModel; td[].deg and the statistics are left out; divisor masks of the kept elements (trace->lm) are left
    out (C15). The 16-bit kernel sets no bits (la_ff_16.c), a trace learned with it would be useless; the callers learn and apply
    with the 32-bit kernels, so that K16 is not covered by the learning functions below. *)
From Coq Require Import ZArith NArith Arith List Bool Lia.
From Verif Require Import ModInvModel MonoSpec MonoModel GbSpec LaModel F4Model.
Import ListNotations.
Open Scope Z_scope.

(** BINDEX and MULT of a row: number of the basis element and multiplier *)
Notation tag := (nat * mono)%type (only parsing).
(** symbol.c l.664-672: the row of a tag *)
Definition tag_row (els : list elt) (t : nat * mono) : res (list (Z * mono)) :=
  let! g := of_opt (nth_error els (fst t)) in mul_row (snd t) (e_pol g).
(** symbol.c l.313-334, 352-377, 528-549: tag of the row of element i with leading monomial m *)
Definition tag_at (els : list elt) (m : mono) (i : nat) : res (nat * mono) :=
  let! g := of_opt (nth_error els i) in Ok (i, mquo m (e_lm g)).
Notation trw := ((nat * mono) * list (Z * mono))%type (only parsing).
Definition tagged_at (els : list elt) (m : mono) (i : nat) : res ((nat * mono) * list (Z * mono)) :=
  let! t := tag_at els m i in let! r := tag_row els t in Ok (t, r).

(** * Bit arrays: rba_t = uint32_t, data.h *)
(** [w[i/32] |= b << (i%32)] *)
Definition put_bit (w : list N) (i : nat) (b : N) : option (list N) :=
  match nth_error w (i / 32) with
  | None => None
  | Some x => Some (lset w (i / 32) (N.lor x (N.shiftl b (N.of_nat (i mod 32)) mod 2 ^ 32)))
  end.
(** [w[i/32] >> (i%32) & 1U] *)
Definition get_bit (w : list N) (i : nat) : option N :=
  match nth_error w (i / 32) with None => None | Some x => Some (N.land (N.shiftr x (N.of_nat (i mod 32))) 1) end.
(** lrba, tools.c l.73; symbol.c l.614 *)
Definition nwords (n : nat) : nat := (n / 32 + if (n mod 32 =? 0)%nat then 0 else 1)%nat.
(** tools.c l.107-111 *)
Fixpoint orw (a b : list N) : option (list N) :=
  match a, b with
  | [], _ => Some []
  | x :: a', y :: b' => match orw a' b' with Some l => Some (N.lor x y :: l) | None => None end
  | _, [] => None
  end.
Fixpoint or_all (acc : list N) (l : list (list N)) : option (list N) :=
  match l with [] => Some acc | w :: l' => match orw acc w with Some a => or_all a l' | None => None end end.

(** * Linear algebra with recording of the reducers *)
(** la_ff_32.c l.1011-1036, 1670-1694: the bit of column i is set when a known pivot of a column below ncl is used *)
Definition uses (p : Z) (ncl ncols : nat) (pivs : nat -> option srow) (s : rstate) : option nat :=
  match s with
  | Red i dr _ =>
      if ((i <? ncols) && (i <? ncl))%nat then
        match nth_error dr i with
        | Some d => match pivs i with
                    | Some _ => if (if d =? 0 then d else Z.rem d p) =? 0 then None else Some i
                    | None => None
                    end
        | None => None
        end
      else None
  | _ => None
  end.
Definition row_step_t (k : kern) (p : Z) (ncl ncols : nat) (pivs : nat -> option srow) (s : rstate * list N)
  : option ((nat -> option srow) * (rstate * list N)) :=
  match row_step k p ncl ncols pivs (fst s) with
  | None => None
  | Some q => match uses p ncl ncols pivs (fst s) with
              | None => Some (fst q, (snd q, snd s))
              | Some i => match put_bit (snd s) i 1 with Some w => Some (fst q, (snd q, w)) | None => None end
              end
  end.
Record tshared := { ts_pivs : nat -> option srow; ts_rows : list (rstate * list N) }.
Definition sys_step_t (k : kern) (p : Z) (ncl ncols t : nat) (s : tshared) : option tshared :=
  match nth_error (ts_rows s) t with
  | None => Some s
  | Some rs => match row_step_t k p ncl ncols (ts_pivs s) rs with
               | Some q => Some {| ts_pivs := fst q; ts_rows := lset (ts_rows s) t (snd q) |}
               | None => None
               end
  end.
Fixpoint sys_run_t (k : kern) (p : Z) (ncl ncols : nat) (sched : list nat) (s : tshared) : option tshared :=
  match sched with
  | [] => Some s
  | t :: ts => match sys_step_t k p ncl ncols t s with Some s' => sys_run_t k p ncl ncols ts s' | None => None end
  end.
(** symbol.c l.612-618: zeroed bit arrays *)
Definition init_t (nru : nat) (rr : nat -> option srow) (tr : list srow) : tshared :=
  {| ts_pivs := rr; ts_rows := map (fun r => (Todo r, repeat 0%N (nwords nru))) tr |}.
Definition is_piv (s : rstate) : bool := match s with DonePiv _ => true | _ => false end.
Definition is_zero (s : rstate) : bool := match s with DoneZero => true | _ => false end.

(** * Trace *)
(** td_t, data.h: reducers, rows to be reduced, bits of the kept rows, leading monomials of the new elements *)
Record tdata := { td_rri : list (nat * mono); td_tri : list (nat * mono); td_rba : list (list N); td_nlms : list mono }.
Record trace := { t_rds : list tdata; t_lmps : list nat }.

(** tools.c l.116-124 *)
Fixpoint kept_red (reds : list N) (i : nat) (rr : list (nat * mono)) : option (list (nat * mono)) :=
  match rr with
  | [] => Some []
  | t :: rr' => match get_bit reds i with
                | None => None
                | Some b => match kept_red reds (S i) rr' with
                            | None => None
                            | Some l => Some (if (b =? 0)%N then l else t :: l)
                            end
                end
  end.
(** tools.c l.140-150, the row j: i runs over the nru reducers, ctr counts the kept ones *)
Fixpoint squeeze (reds w : list N) (cnt i ctr : nat) (acc : list N) : option (list N) :=
  match cnt with
  | O => Some acc
  | S n => match get_bit reds i with
           | None => None
           | Some b => if (b =? 0)%N then squeeze reds w n (S i) ctr acc
                       else match get_bit w i with
                            | None => None
                            | Some x => match put_bit acc ctr x with
                                        | None => None
                                        | Some a => squeeze reds w n (S i) (S ctr) a
                                        end
                            end
           end
  end.
Fixpoint omap {A B} (f : A -> option B) (l : list A) : option (list B) :=
  match l with [] => Some [] | a :: l' => match f a with None => None | Some b => match omap f l' with None => None | Some bs => Some (b :: bs) end end end.
(** construct_trace, tools.c l.41-154, when some row is not zero; rr: tags of the reducers in the order of the columns, tr: tags
    of the rows to be reduced, rows: final states and bit arrays *)
Definition construct_trace (rr tr : list (nat * mono)) (rows : list (rstate * list N)) (nlms : list mono) : option tdata :=
  let nru := length rr in
  let kept := filter (fun x => is_piv (fst (snd x))) (combine tr rows) in
  let rba := map (fun x => snd (snd x)) kept in
  match or_all (repeat 0%N (nwords nru)) rba with
  | None => None
  | Some reds =>
      match kept_red reds 0 rr with
      | None => None
      | Some rri =>
          match omap (fun w => squeeze reds w nru 0 0 (repeat 0%N (nwords (length rri)))) rba with
          | None => None
          | Some nrba => Some {| td_rri := rri; td_tri := map fst kept; td_rba := nrba; td_nlms := nlms |}
          end
      end
  end.

(** * Learning *)
Definition run_tags (els : list elt) (run : mono * list nat) := rmap (tagged_at els (fst run)) (gens_of (snd run)).
Fixpoint symb_t (fuel : nat) (els : list elt) (lmps : list nat) (skip : list mono) (oes i : nat) (sht leads : list mono) (rr : list ((nat * mono) * list (Z * mono)))
  : res (list mono * list mono * list ((nat * mono) * list (Z * mono))) :=
  match nth_error sht i with
  | None => Ok (sht, leads, rr)
  | Some m =>
      match fuel with
      | O => More
      | S f =>
          if (i <? oes)%nat && mem m skip then symb_t f els lmps skip oes (S i) sht leads rr
          else let! o := find_red els lmps m in
               match o with
               | None => symb_t f els lmps skip oes (S i) sht leads rr
               | Some g => let! r := tagged_at els m g in symb_t f els lmps skip oes (S i) (sht_row sht (snd r)) (m :: leads) (rr ++ [r])
               end
      end
  end.
Definition round_matrix_t (c : config) (fuel r : nat) (b : basis) (ps : list spair)
  : res (list spair * (list mono * list mono) * (list ((nat * mono) * list (Z * mono)) * list ((nat * mono) * list (Z * mono)))) :=
  let ps := c_sort c r ps in
  let n := nselect (c_mnsel c) (c_stale c r) ps in
  let rs := runs (firstn n ps) in
  let! rows := rmap (run_tags (b_el b)) rs in
  let! rr0 := rmap (fun l => of_opt (hd_error l)) rows in
  let tr := concat (map (@tl _) rows) in
  let sht := sht_rows [] (map snd (concat rows)) in
  let! (sht', leads, rr) := symb_t fuel (b_el b) (b_lmps b) (map fst rs) (length sht) 0 sht (map fst rs) rr0 in
  Ok (skipn n ps, columns (c_o c) sht' leads, (rr, tr)).

(** sort_matrix_rows_decreasing on rows with their tags *)
Definition rows_dec_t (l : list ((nat * mono) * list (nat * Z))) := sort_by (fun a b => (hcol (snd a) <=? hcol (snd b))%nat) l.
(** compute_new_elements and linear algebra while learning, f4.c l.414-476, la_ff_32.c l.2588-2763; the new elements and, when
    there are any, the data of the round *)
Definition learn_rows (c : config) (r : nat) (cols : list mono * list mono) (rr tr : list ((nat * mono) * list (Z * mono)))
  : res (list (list (Z * mono)) * list tdata) :=
  let hcm := fst cols ++ snd cols in
  let! _ := when (cols_fit (c_k c) (c_p c) (length hcm)) in
  let rrs := rows_dec_t (map (fun x => (fst x, to_row hcm (snd x))) rr) in
  let ncl := length (fst cols) in
  let! s := of_opt (sys_run_t (c_k c) (c_p c) ncl (length hcm) (c_sched c r (length hcm) (length tr))
                      (init_t (length rr) (nth_error (map snd rrs)) (map (fun x => to_row hcm (snd x)) tr))) in
  if forallb (fun x => finished (fst x)) (ts_rows s) then
    let! l := of_opt (interreduce (c_k c) (c_p c) ncl (length hcm) (length hcm - ncl) (drop_old ncl (ts_pivs s))) in
    let! news := rmap (of_row hcm) (rev l) in
    if existsb (fun x => is_piv (fst x)) (ts_rows s) then
      let! d := of_opt (construct_trace (map fst rrs) (map fst tr) (ts_rows s) (map lmono news)) in Ok (news, [d])
    else Ok (news, [])
  else Undef.
Definition learn_round (c : config) (fuel r : nat) (b : basis) (ps : list spair) : res (basis * list spair * list tdata) :=
  let! (ps, cols, (rr, tr)) := round_matrix_t c fuel r b ps in
  let! (news, d) := learn_rows c r cols rr tr in
  let els := map (mk_elt (o_nev (c_o c))) news in
  let b' := {| b_el := b_el b; b_red := b_red b; b_lmps := b_lmps b; b_lo := b_lo b; b_mlt := b_mlt b; b_nold := b_nold b;
               b_const := b_const b || existsb (fun e => e_deg e =? 0) els |} in
  let! (b'', ps') := update_basis (c_o c) b' ps els in Ok (b'', ps', d).
Fixpoint learn_loop (c : config) (fuel r : nat) (b : basis) (ps : list spair) (ds : list tdata) : res (basis * list tdata) :=
  if done b ps then Ok (b, ds) else
  match fuel with
  | O => More
  | S f => let! (b', ps', d) := learn_round c fuel r b ps in learn_loop c f (S r) b' ps' (ds ++ d)
  end.
(** core_f4 with LEARN_TRACER: the basis, as without tracer, and the trace *)
Definition learn_f4 (c : config) (fuel : nat) (F : list (list (Z * mono))) : res (list (list (Z * mono)) * trace) :=
  let! F' := rmap (normalize_poly (c_k c) (c_p c)) F in
  let b0 := {| b_el := []; b_red := []; b_lmps := []; b_lo := O; b_mlt := 0; b_nold := O; b_const := false |} in
  let! (b, ps) := update_basis (c_o c) b0 [] (map (mk_elt (o_nev (c_o c))) F') in
  let! (b, ds) := learn_loop c fuel O b ps [] in
  let lmps := final_lmps b in
  let! out := reduce_final c fuel (b_el b) lmps in
  Ok (out, {| t_rds := ds; t_lmps := lmps |}).

(** * Application *)
(** la_ff_32.c l.2627-2704 with APPLY_TRACER: a row reduced to zero makes the prime bad (None) *)
Definition echelon_apply (k : kern) (p : Z) (ncl ncols : nat) (rr : nat -> option srow) (tr : list srow) (sched : list nat) : option (option (list srow)) :=
  match sys_run k p ncl ncols sched (init_shared rr tr) with
  | None => None
  | Some s => if existsb is_zero (sh_rows s) then Some None
              else if forallb finished (sh_rows s)
                   then match interreduce k p ncl ncols (ncols - ncl) (drop_old ncl (sh_pivs s)) with Some l => Some (Some l) | None => None end
                   else None
  end.
Fixpoint list_eqb (a b : list mono) : bool :=
  match a, b with [], [] => true | x :: a', y :: b' => mono_eqb x y && list_eqb a' b' | _, _ => false end.
(** One round: generate_matrix_from_trace (symbol.c l.632-705), compute_new_elements (f4.c l.414-476): None when the prime is
    rejected because a row vanished, the number of new elements or a leading monomial differs *)
Definition apply_round (c : config) (r : nat) (els : list elt) (d : tdata) : res (option (list (list (Z * mono)))) :=
  let! rr := rmap (tag_row els) (td_rri d) in
  let! tr := rmap (tag_row els) (td_tri d) in
  let cols := columns (c_o c) (sht_rows [] (rr ++ tr)) (map lmono rr) in
  let hcm := fst cols ++ snd cols in
  let! _ := when (cols_fit (c_k c) (c_p c) (length hcm)) in
  let! x := of_opt (echelon_apply (c_k c) (c_p c) (length (fst cols)) (length hcm) (nth_error (rows_dec (map (to_row hcm) rr))) (map (to_row hcm) tr)
                      (c_sched c r (length hcm) (length tr))) in
  match x with
  | None => Ok None
  | Some l =>
      if (length l =? length (td_nlms d))%nat then
        let! news := rmap (of_row hcm) (rev l) in
        Ok (if list_eqb (map lmono news) (td_nlms d) then Some news else None)
      else Ok None
  end.
Fixpoint apply_loop (c : config) (r : nat) (els : list elt) (ds : list tdata) : res (option (list elt)) :=
  match ds with
  | [] => Ok (Some els)
  | d :: ds' => let! x := apply_round c r els d in
                match x with
                | None => Ok None
                | Some news => apply_loop c (S r) (els ++ map (mk_elt (o_nev (c_o c))) news) ds'
                end
  end.
(** core_f4 with APPLY_TRACER. With an empty trace the code runs one round on an empty matrix, which adds nothing. *)
Definition apply_f4 (c : config) (fuel : nat) (T : trace) (F : list (list (Z * mono))) : res (option (list (list (Z * mono)))) :=
  let! F' := rmap (normalize_poly (c_k c) (c_p c)) F in
  let! x := apply_loop c O (map (mk_elt (o_nev (c_o c))) F') (t_rds T) in
  match x with
  | None => Ok None
  | Some els => let! out := reduce_final c fuel els (t_lmps T) in Ok (Some out)
  end.
