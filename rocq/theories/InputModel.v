(** Model of the input system held by the solver and of its genericity handling, msolve/msolve.c l.429-729, l.122-171,
    l.3388-3417, l.4103-4148, l.4761-4825, and of the initial values, iofiles.c l.888-898. [None] is an access outside an
    array, an undefined conversion of a double, or a random generator that never gives a usable value. Offsets (int32_t,
    int64_t) are unbounded numbers. *)
From Coq Require Import ZArith String List Arith Bool.
From Verif Require Import ModInvModel InputSpec.
Import ListNotations.
Local Open Scope bool_scope.
Open Scope Z_scope.

(** data_gens_ff_t, msolve/msolve-data.h l.55-75, without the fields that are only used elsewhere. [cfs] stands for the
    array cfs (positive characteristic, second component unused and 1) or mpz_cfs (characteristic 0: numerators at the
    even, denominators at the odd positions). *)
Record gens := mkG {
  nvars : nat; vnames : list string; lens : list nat; exps : list Z; cfs : list coef; field_char : Z;
  change_var_order : Z; linear_form_base_coef : Z; rand_linear : bool; random_linear_form : list Z }.

Fixpoint aset {A} (l : list A) (i : nat) (v : A) : option (list A) :=
  match l, i with
  | [], _ => None
  | _ :: l', O => Some (v :: l')
  | a :: l', S i' => let? r := aset l' i' v in Some (a :: r)
  end.
(** tmp = l[a]; l[a] = l[b]; l[b] = tmp; *)
Definition aswap {A} (l : list A) (a b : nat) : option (list A) :=
  let? tmp := nth_error l a in let? y := nth_error l b in let? l1 := aset l a y in aset l1 b tmp.
(** Index that may be negative in the C code. *)
Definition idx (z : Z) : option nat := if z <? 0 then None else Some (Z.to_nat z).

(** l.455-463 and l.488-496: exchange the columns nvars-1 and [c] in the terms j, j+1, ... of a generator at offset [len]. *)
Fixpoint swap_terms (cnt j n c len : nat) (e : list Z) : option (list Z) :=
  match cnt with
  | O => Some e
  | S cnt' => let? e1 := aswap e (len + j * n + (n - 1)) (len + j * n + c) in swap_terms cnt' (S j) n c len e1
  end.
Fixpoint swap_gens (ls : list nat) (n c len : nat) (e : list Z) : option (list Z) :=
  match ls with
  | [] => Some e
  | l :: ls' => let? e1 := swap_terms l 0 n c len e in swap_gens ls' n c (len + l * n) e1
  end.
(** Names and exponents, the body of both functions. *)
Definition swap_with (g : gens) (c : nat) : option gens :=
  let? nm := aswap (vnames g) (nvars g - 1) c in
  let? e := swap_gens (lens g) (nvars g) c 0 (exps g) in
  Some (mkG (nvars g) nm (lens g) e (cfs g) (field_char g) (change_var_order g) (linear_form_base_coef g) (rand_linear g) (random_linear_form g)).
Definition set_cvo (g : gens) (z : Z) : gens :=
  mkG (nvars g) (vnames g) (lens g) (exps g) (cfs g) (field_char g) z (linear_form_base_coef g) (rand_linear g) (random_linear_form g).

(** l.435-471, undo_variable_order_change *)
Definition undo_variable_order_change (g : gens) : option (bool * gens) :=
  let cvo := change_var_order g in
  if 0 <? linear_form_base_coef g then Some (false, g)
  else let? g1 := (if -1 <? cvo then let? c := idx cvo in swap_with g c else Some g) in
       let g2 := set_cvo g1 (cvo + 1) in
       Some (negb (cvo + 1 =? Z.of_nat (nvars g) - 1), g2).
(** l.472-506, change_variable_order_in_input_system, without the message *)
Definition change_variable_order (g : gens) : option (bool * gens) :=
  let cvo := change_var_order g in
  let? r := undo_variable_order_change g in
  if fst r then let? c := idx (cvo + 1) in let? g2 := swap_with (snd r) c in Some (true, g2)
  else Some (false, snd r).

(** l.518-536 and l.619-637: sizes before and after. *)
Definition sum_lens (l : list nat) : nat := fold_right Nat.add O l.
Definition nvars_old (g : gens) : nat := if linear_form_base_coef g =? 0 then nvars g else nvars g - 1.
Definition nvars_new (g : gens) : nat := S (nvars_old g).
Definition len_old (g : gens) : nat := if linear_form_base_coef g =? 0 then sum_lens (lens g) else sum_lens (removelast (lens g)).
Definition len_new (g : gens) : nat := if linear_form_base_coef g =? 0 then len_old g + nvars_new g else len_old g + last (lens g) O.

(** memcpy(dst + j, src + i, n) *)
Definition blit (dst src : list Z) (j i n : nat) : option (list Z) :=
  if (i + n <=? length src)%nat && (j + n <=? length dst)%nat
  then Some (firstn j dst ++ firstn n (skipn i src) ++ skipn (j + n) dst) else None.
(** l.558-563: copy loop, result with the value of j at its end. With nvars_old = 0 it does not start. *)
Fixpoint copy_loop (fuel : nat) (dst src : list Z) (i j no bound : nat) : option (list Z * nat) :=
  if (i <? bound)%nat then
    match fuel with
    | O => None
    | S f => let? d := blit dst src j i no in copy_loop f d src (i + no) (j + S no) no bound
    end
  else Some (dst, j).
(** l.566-569: diagonal of the new generator. *)
Fixpoint diag_loop (fuel : nat) (e : list Z) (j step bound : nat) : option (list Z) :=
  if (j <? bound)%nat then
    match fuel with O => None | S f => let? e1 := aset e j 1 in diag_loop f e1 (j + step) step bound end
  else Some e.
(** l.539-587, l.641-686: first linear form: new variable, new generator. The new coefficients are created with numerator
    and denominator 1 (only the denominators are set in the second function; all numerators are written afterwards). *)
Definition extend (g : gens) : option gens :=
  if linear_form_base_coef g =? 0 then
    let no := nvars_old g in let nn := nvars_new g in
    let? c := copy_loop (len_old g) (repeat 0 (len_new g * nn)) (exps g) 0 0 no (len_old g * no) in
    let? e := diag_loop (len_new g * nn) (fst c) (snd c) (S nn) (len_new g * nn) in
    Some (mkG nn (vnames g ++ ["A"%string]) (lens g ++ [nn]) e (cfs g ++ repeat (1, 1) nn) (field_char g)
              (change_var_order g) (linear_form_base_coef g) (rand_linear g) (random_linear_form g))
  else Some g.
Definition set_cfs (g : gens) (c : list coef) (b : Z) (rl : bool) (rf : list Z) : gens :=
  mkG (nvars g) (vnames g) (lens g) (exps g) c (field_char g) (change_var_order g) b rl rf.
Definition set_num (l : list coef) (i : nat) (v : Z) : option (list coef) :=
  let? x := nth_error l i in aset l i (v, snd x).

(** (int32_t)(pow(k, e)): undefined when the value does not fit. pow is exact on these values. *)
Definition int_pow (k e : Z) : option Z := if k ^ e <? 2 ^ 31 then Some (k ^ e) else None.
(** l.599-603: entries i, i+1, ..., with k, k+1, ... *)
Fixpoint write_ff (cnt : nat) (l : list coef) (i : nat) (k e fc : Z) : option (list coef) :=
  match cnt with
  | O => Some l
  | S cnt' => let? v := int_pow k e in let? l1 := set_num l i (Z.rem v fc) in write_ff cnt' l1 (S i) (k + 1) e fc
  end.
(** l.607-610 *)
Fixpoint write_qq (cnt : nat) (l : list coef) (i : nat) (k e : Z) : option (list coef) :=
  match cnt with
  | O => Some l
  | S cnt' => let? v := int_pow k e in let? l1 := set_num l i v in write_qq cnt' l1 (S i) (k + 1) e
  end.
(** l.513-614, add_linear_form_to_input_system *)
Definition add_linear_form (g : gens) : option (bool * gens) :=
  let lo := len_old g in let ln := len_new g in
  let? g1 := extend g in
  let bcf := linear_form_base_coef g + 1 in
  let? c := (if 0 <? field_char g then write_ff (ln - 1 - lo) (cfs g1) lo 1 (bcf - 1) (field_char g)
             else write_qq (ln - lo) (cfs g1) lo 1 (bcf - 1)) in
  let? c1 := set_num c (ln - 1) 1 in
  Some (true, set_cfs g1 c1 bcf (rand_linear g1) (random_linear_form g1)).

(** (int8_t)(rand()), the list holds the values returned by rand() *)
Definition wrap8 (r : Z) : Z := (r + 128) mod 256 - 128.
Fixpoint draw (fc : Z) (rnd : list Z) : option (Z * list Z) :=
  match rnd with
  | [] => None
  | r :: rnd' => let v := if 0 <? fc then Z.rem (wrap8 r) fc else wrap8 r in if v =? 0 then draw fc rnd' else Some (v, rnd')
  end.
(** l.698-726. [sum] as in the code; the test i < 2*len_new-1 of l.716 compares twice the entry number. In positive
    characteristic (l.697-707) the entry is what was drawn. *)
Fixpoint write_random (cnt : nat) (l : list coef) (i ln no : nat) (fc sum : Z) (rnd : list Z) : option (list coef * list Z * list Z) :=
  match cnt with
  | O => Some (l, [], rnd)
  | S cnt' =>
    let? d := draw fc rnd in
    let v := if 0 <? fc then fst d else if Z.of_nat (2 * i) <? 2 * Z.of_nat ln - 1 then fst d else sum in
    let? l1 := aset l i (v, 1) in
    let? r := write_random cnt' l1 (S i) ln no fc (sum + Z.of_nat no * Z.abs v) (snd d) in
    Some (fst (fst r), v :: snd (fst r), snd r)
  end.
(** l.616-729, add_random_linear_form_to_input_system *)
Definition add_random_linear_form (g : gens) (rnd : list Z) : option (bool * gens * list Z) :=
  let lo := len_old g in let ln := len_new g in
  let? g1 := extend g in
  let? r := write_random (ln - lo) (cfs g1) lo ln (nvars_old g) (field_char g) 0 rnd in
  Some (true, set_cfs g1 (fst (fst r)) (linear_form_base_coef g + 1) true (snd (fst r)), snd r).

(** Result of an attempt to solve that asks for more genericity: b = 1 or b = 2. *)
Inductive outcome := Staircase | Separation.
(** l.4105-4148 and l.4773-4825 with the option genericity_handling [gh]: whether the computation is restarted. *)
Definition handle (gh : Z) (o : outcome) (g : gens) (rnd : list Z) : option (bool * gens * list Z) :=
  match o with
  | Staircase =>
    if 0 <? gh then
      let? r := change_variable_order g in
      if fst r then Some (true, snd r, rnd)
      else if gh =? 2 then let? r2 := add_linear_form (snd r) in Some (fst r2, snd r2, rnd)
      else Some (false, snd r, rnd)
    else Some (false, g, rnd)
  | Separation =>
    let? g1 := (if 0 <=? change_var_order g then let? r := undo_variable_order_change g in Some (snd r) else Some g) in
    if gh =? 2 then add_random_linear_form g1 rnd else Some (false, g1, rnd)
  end.
(** The attempts one after the other; [false] when the computation was given up. *)
Fixpoint attempts (gh : Z) (os : list outcome) (g : gens) (rnd : list Z) : option (bool * gens) :=
  match os with
  | [] => Some (true, g)
  | o :: os' =>
    let? r := handle gh o g rnd in
    if fst (fst r) then attempts gh os' (snd (fst r)) (snd r) else Some (false, snd (fst r))
  end.

(** l.3394-3416: the coordinates of a real point as reported when the parametrisation is not asked for; the number of
    variables of the parametrisation is that of the system. *)
Definition reported {A} (g : gens) (pt : list A) : option (list A) :=
  if 0 <? linear_form_base_coef g then Some (removelast pt)
  else if negb (change_var_order g =? -1) && negb (change_var_order g =? Z.of_nat (nvars g) - 1)
       then let? c := idx (change_var_order g) in aswap pt (nvars g - 1) c
  else Some pt.

(** l.140-171: the linear form written with the parametrisation, as fractions. *)
Definition shown_form (g : gens) : list coef :=
  if rand_linear g then
    let sum := fold_right Z.add 0 (map (fun r => Z.abs r * Z.of_nat (nvars g) - 1) (random_linear_form g)) in
    map (fun r => (r, if field_char g =? 0 then sum else 1)) (random_linear_form g)
  else if 0 <? linear_form_base_coef g then
    map (fun i => (Z.of_nat (S i) ^ (linear_form_base_coef g - 1), 1)) (seq 0 (nvars g - 1)) ++ [(1, 1)]
  else repeat (0, 1) (nvars g - 1) ++ [(1, 1)].

(** iofiles.c l.888-898, the values before the first attempt. *)
Definition fresh (g : gens) : Prop := change_var_order g = -1 /\ linear_form_base_coef g = 0 /\ rand_linear g = false.

(** The system held by the record: generators one after the other, each with its terms one after the other. *)
Definition rep (g : gens) (names : list string) (s : isys) : Prop :=
  vnames g = names /\ length names = nvars g /\ sys_wf (nvars g) s /\ lens g = map (@length iterm) s /\
  exps g = flat_map (flat_map snd) s /\ cfs g = flat_map (map fst) s.
