(** What a program gets that calls the solver through the library. Source: /repo/src/msolve/msolve.c msolve_julia l.4956-5107, with
    export_julia_rational_parametrization_qq l.4838-4953; what precedes the export: mpz_param_init l.98-105, msolve_trace_qq l.2101-2152, manage_output and
    display_output l.3447-3530, core_msolve l.4063-4150 and l.4752-4820; msolve-data.h l.52-75, l.199-208.
    Simplifications: the computation is its result (the integer b of real_msolve_qq, dimension, dimension of the quotient, parametrisation, points, see [comp]);
    print_gb = 0, no elimination order (then the computation does not set the dimension at all, and the export reads an uninitialised field); the caller's
    variables are slots; the numbers of mpz type are integers; messages, timings and the release of memory are left out. *)
From Coq Require Import ZArith NArith Arith String List Bool Ascii.
From Verif Require Import F4Model ModInvModel InputSpec InputModel ImportModel BoxModel OutModel LibModel.
Import ListNotations.
Open Scope Z_scope.
Notation length := List.length.

(** A variable of the caller: not assigned, set to the null pointer, set to an array. *)
Inductive slot (A : Type) := Same | Null | To (a : A).
Arguments Same {A}. Arguments Null {A}. Arguments To {A} a.
Record handed_out := { x_ld : Z; x_nvars : option Z; x_dim : Z; x_dquot : option Z; x_lens : slot (list Z); x_names : option (list string); x_lf : slot (list Z); x_cfs : slot (list Z);
  x_nr : Z; x_num : slot (list Z); x_den : slot (list Z) }.

(** The result of real_msolve_qq: b as documented l.3327-3333 *)
Record comp := { k_b : Z; k_dim : Z; k_dquot : Z; k_par : mparam; k_pts : list (list box) }.
(** mpz_param_init, l.98-105 *)
Definition no_param (nv : nat) : mparam := {| p_nvars := nv; p_elim := []; p_denom := []; p_coords := None; p_cfs := [] |}.
(** mpz_param as core_msolve leaves it. l.2101-2152: over a prime field, or without an answer, the parametrisation is not initialised (l.2104, l.2176); l.3463: the
    number of variables is set when the output is displayed; l.4789: dim = -1 after b = 1, in characteristic 0 only; l.3519, l.3523. *)
Definition left_dim (g : gens) (r : comp) : Z :=
  if k_b r =? -2 then -2 else if k_b r =? -3 then -3 else if (k_b r =? 1) && (field_char g =? 0) then -1 else k_dim r.
Definition left_param (g : gens) (r : comp) : mparam :=
  let m := if (field_char g =? 0) && (k_b r =? 0) && (k_dim r =? 0) && (0 <? k_dquot r) then k_par r else no_param 0 in
  if (k_b r =? 0) && negb (k_dquot r =? 0) && (k_dim r =? 0) && (0 <=? k_dquot r)
  then {| p_nvars := nvars g; p_elim := p_elim m; p_denom := p_denom m; p_coords := p_coords m; p_cfs := p_cfs m |} else m.

(** l.4860-4873: the numerators of the last generator, or null *)
Definition form_of (g : gens) : res (slot (list Z)) :=
  if 0 <? linear_form_base_coef g then
    let len := sum_lens (removelast (lens g)) in
    let! l := of_opt (omap (fun i => let? c := nth_error (cfs g) (i + len) in Some (fst c)) (seq 0 (nvars g))) in Ok (To l)
  else Ok Null.
(** l.4879-4921 *)
Definition coord_at (m : mparam) (i : nat) : option (list Z) := let? cs := p_coords m in nth_error cs i.
Definition export_param (m : mparam) : res (list Z * list Z) :=
  let ix := seq 0 (p_nvars m - 1) in
  let! l0 := puts (p_nvars m + 1) [] [int32 (Z.of_nat (length (p_elim m))); int32 (Z.of_nat (length (p_denom m)))] in
  let! cs := of_opt (omap (coord_at m) ix) in
  let! len := puts (p_nvars m + 1) l0 (map (fun c => int32 (Z.of_nat (length c) + 1)) cs) in
  let nterms := (length (p_elim m) + length (p_denom m) + fold_right (fun c n => length c + 1 + n) 0 cs)%nat in
  let! c0 := puts nterms [] (p_elim m) in
  let! c1 := puts nterms c0 (p_denom m) in
  let! fs := of_opt (omap (fun i => nth_error (p_cfs m) i) ix) in
  let! cf := puts nterms c1 (concat (map (fun cf => fst cf ++ [snd cf]) (combine cs fs))) in
  Ok (len, cf).
(** l.4930-4950 *)
Definition export_points (pts : list (list box)) : res (list Z * list Z) :=
  match pts with
  | [] => Undef
  | p0 :: _ =>
      let cap := (2 * length pts * length p0)%nat in
      let! nu := puts cap [] (concat (map (fun b => [val_do b; val_up b]) (concat pts))) in
      let! de := puts cap [] (concat (map (fun b => [int32 (k_do b); int32 (k_up b)]) (concat pts))) in
      Ok (nu, de)
  end.
(** l.4838-4953 and l.5063-5091 *)
Definition export_julia (g : gens) (dim dquot : Z) (m : mparam) (pts : list (list box)) : res handed_out :=
  let out lens cfs lf nu de := {| x_ld := int32 (Z.of_nat (p_nvars m) + 1); x_nvars := Some (int32 (Z.of_nat (nvars g))); x_dim := int32 dim; x_dquot := Some (int32 dquot);
     x_lens := lens; x_names := Some (vnames g); x_lf := lf; x_cfs := cfs; x_nr := int32 (Z.of_nat (length pts)); x_num := nu; x_den := de |} in
  let! lf := form_of g in
  if (0 <? dim) || ((dim =? 0) && (dquot =? 0)) then Ok (out Null Null Same Same Same)
  else
    let! a := export_param m in
    match pts with
    | [] => Ok (out (To (fst a)) (To (snd a)) lf Same Same)
    | _ => let! b := export_points pts in Ok (out (To (fst a)) (To (snd a)) lf (To (fst b)) (To (snd b)))
    end.
Definition msolve_julia (g : gens) (r : comp) : res handed_out :=
  let dim := left_dim g r in
  if negb (dim =? -1) then export_julia g dim (k_dquot r) (left_param g r) (k_pts r)
  else Ok {| x_ld := -1; x_nvars := None; x_dim := -1; x_dquot := None; x_lens := Same; x_names := None; x_lf := Same; x_cfs := Same; x_nr := int32 (Z.of_nat (length (k_pts r))); x_num := Same; x_den := Same |}.

(** l.5012-5015: calloc of strlen bytes, memcpy of strlen bytes *)
Fixpoint strlen (b : list ascii) : option nat :=
  match b with [] => None | c :: b' => if Ascii.eqb c "000"%char then Some O else let? n := strlen b' in Some (S n) end.
Definition copy_name (b : list ascii) : option (list ascii) := let? n := strlen b in Some (firstn n b).
