(** Printing of the solutions.
    Source: /repo/src/msolve/msolve.c mpz_upoly_out_str l.81-97, mpz_param_out_str l.122-217, mpz_param_out_str_maple l.219-225,
    display_real_point l.2591-2638, display_real_points l.2640-2652, display_output l.3447-3506, manage_output l.3508-3530;
    /repo/src/fglm/fglm_core.c display_nmod_poly l.102-115.
    Simplifications: what is written is the result, to the file or to the standard output alike; %d, %ld, %lu and mpz_out_str give the decimal
    digits; lengths and counters are unbounded; the system is the record of InputModel and a box that of BoxModel; messages on stderr are
    left out. None: read outside an array, overflow of an int, undefined conversion of a double. *)
From Coq Require Import String ZArith NArith Arith List Bool Ascii.
From Verif Require Import ModInvModel ParseSpec FglmModel PrintModel InputModel BoxModel.
Import ListNotations.
Local Open Scope string_scope.
Local Open Scope list_scope.
Open Scope Z_scope.

(** a loop that writes elements with a separator after all but the last *)
Fixpoint sep_by (sp : str) (l : list str) : str := match l with [] => [] | [s] => s | s :: l' => s ++ sp ++ sep_by sp l' end.
(** msolve.c l.81-97 *)
Definition mpz_upoly_out (c : list Z) : str :=
  s_ "[" ++ match c with
            | [] => s_ "-1, [0]"
            | _ => num (Z.of_nat (List.length c) - 1) ++ s_ ", " ++ s_ "[" ++ sep_by (s_ ", ") (map num c) ++ s_ "]"
            end ++ s_ "]".
(** fglm_core.c l.102-115 *)
Definition nmod_poly_out (c : list Z) : str :=
  s_ "[" ++ num (Z.of_nat (List.length c) - 1) ++ s_ "," ++ [nl] ++
  match c with [] => s_ "[0]" | _ => s_ "[" ++ sep_by (s_ ", ") (map num c) ++ s_ "]" end ++ s_ "]".

(** mpz_param_t, msolve-data.h, and param_t (no cfs): coords is None for NULL *)
Record mparam := { p_nvars : nat; p_elim : list Z; p_denom : list Z; p_coords : option (list (list Z)); p_cfs : list Z }.

(** l.134-138 *)
Definition names_out (nv : nat) (names : list string) : option str :=
  match nv with
  | O => None
  | _ => let? l := omap (fun i => let? x := nth_error names i in Some (s_ "'" ++ s_ x ++ s_ "'")) (seq 0 nv) in
         Some (s_ "[" ++ sep_by (s_ ", ") l ++ s_ "]," ++ [nl])
  end.
(** l.142-147: the sum, an int32_t *)
Fixpoint form_sum (nv : nat) (form : list Z) (cnt : nat) (i : nat) (sum : Z) : option Z :=
  match cnt with
  | O => Some sum
  | S cnt' => let? r := nth_error form i in
              let? a := chk 32 (Z.abs r) in let? m := chk 32 (a * Z.of_nat nv) in let? d := chk 32 (m - 1) in let? s := chk 32 (sum + d) in
              form_sum nv form cnt' (S i) s
  end.
(** l.140-171 *)
Definition form_out (nv : nat) (g : gens) : option str :=
  let? body :=
    if rand_linear g then
      let? sum := if field_char g =? 0 then form_sum nv (random_linear_form g) nv 0 0 else Some 0 in
      let? l := omap (fun i => let? r := nth_error (random_linear_form g) i in
                               Some (num r ++ (if field_char g =? 0 then s_ "/" ++ num sum else []))) (seq 0 nv) in
      Some (sep_by (s_ ",") l)
    else if 0 <? linear_form_base_coef g then
      let? l := omap (fun i => int_pow (Z.of_nat (i + 1)) (linear_form_base_coef g - 1)) (seq 0 (nv - 1)) in
      Some (sep_by (s_ ",") (map num l ++ [num 1]))
    else Some (sep_by (s_ ", ") (map num (repeat 0 (nv - 1)) ++ [num 1])) in
  Some (s_ "[" ++ body ++ s_ "]," ++ [nl]).
(** l.186-198 *)
Definition nmod_coords_out (m : mparam) : option str :=
  match p_coords m with
  | None => Some []
  | Some cs =>
      let? l := omap (fun i => let? c := nth_error cs i in
                               Some (s_ "[" ++ nmod_poly_out c ++ (if (i =? p_nvars m - 2)%nat then s_ "]" else s_ "],") ++ [nl])) (seq 0 (p_nvars m - 1)) in
      Some (concat l)
  end.
(** l.200-212 *)
Definition mpz_coords_out (m : mparam) : option str :=
  match p_coords m with
  | None => Some []
  | Some cs =>
      let? l := omap (fun i => let? c := nth_error cs i in let? d := nth_error (p_cfs m) i in
                               Some (s_ "[" ++ mpz_upoly_out c ++ s_ "," ++ [nl] ++ num d ++ (if (i =? p_nvars m - 2)%nat then s_ "]" else s_ "],") ++ [nl]))
                     (seq 0 (p_nvars m - 1)) in
      Some (concat l)
  end.
(** l.122-225: param in characteristic 0, mod_param in positive characteristic; the number of variables is that of param *)
Definition mpz_param_out (g : gens) (dquot : Z) (param mod_param : mparam) : option str :=
  let? names := names_out (p_nvars param) (vnames g) in
  let? form := form_out (p_nvars param) g in
  let ff := negb (field_char g =? 0) in
  let? coords := if ff then nmod_coords_out mod_param else mpz_coords_out param in
  Some (s_ "[" ++ num (field_char g) ++ s_ ", " ++ [nl] ++ num (Z.of_nat (p_nvars param)) ++ s_ ", " ++ [nl] ++ num dquot ++ s_ ", " ++ [nl] ++
        names ++ form ++ s_ "[1," ++ [nl] ++ s_ "[" ++
        (if ff then nmod_poly_out (p_elim mod_param) else mpz_upoly_out (p_elim param)) ++ s_ "," ++ [nl] ++
        (if ff then nmod_poly_out (p_denom mod_param) else mpz_upoly_out (p_denom param)) ++ s_ "," ++ [nl] ++
        s_ "[" ++ [nl] ++ coords ++ s_ "]" ++ s_ "]]" ++ s_ "]").

(** l.2595-2602, l.2604-2611, l.2615-2623, l.2626-2634 *)
Definition end_out (v k : Z) : str :=
  num v ++ (if negb (k =? 0) && negb (v =? 0) then s_ " / " ++ s_ "2" ++ (if 1 <? k then s_ "^" ++ num k else []) else []).
Definition box_out (b : box) : str := s_ "[" ++ end_out (val_do b) (k_do b) ++ s_ ", " ++ end_out (val_up b) (k_up b) ++ s_ "]".
(** l.2591-2638: coords[nvars-1] is read in any case *)
Definition point_out (pt : list box) : option str :=
  match pt with [] => None | _ => Some (s_ "[" ++ sep_by (s_ ", ") (map box_out pt) ++ s_ "]") end.
(** l.2640-2652 *)
Definition points_out (pts : list (list box)) : option str :=
  let? l := omap point_out pts in
  Some (s_ "[1," ++ [nl] ++ s_ "[" ++ sep_by (s_ ", ") l ++ s_ "]" ++ [nl] ++ s_ "]").

(** l.3447-3506 *)
Definition display_output (dim dquot : Z) (g : gens) (mod_param param : mparam) (get_param : Z) (pts : list (list box)) : option str :=
  if dquot =? 0 then Some (s_ "[-1]:" ++ [nl])
  else
    let? a :=
      if (dim =? 0) && (0 <=? dquot) then
        let param := {| p_nvars := nvars g; p_elim := p_elim param; p_denom := p_denom param; p_coords := p_coords param; p_cfs := p_cfs param |} in
        let? x := if (1 <=? get_param) || negb (field_char g =? 0) then mpz_param_out g dquot param mod_param else Some [] in
        let? y := if (get_param <=? 1) && (field_char g =? 0)
                  then let? t := points_out pts in Some ((if get_param =? 0 then [] else s_ ",") ++ t)
                  else Some [] in
        Some (s_ "[0, " ++ x ++ y ++ s_ "]:" ++ [nl])
      else Some [] in
    Some (a ++ (if 0 <? dim then s_ "[1, " ++ num (Z.of_nat (nvars g)) ++ s_ ", -1, []]:" ++ [nl] else [])).
(** l.3508-3530: nothing is written unless the computation ended well *)
Definition manage_output (b dim dquot : Z) (g : gens) (mod_param param : mparam) (get_param : Z) (pts : list (list box)) : option str :=
  if b =? 0 then display_output dim dquot g mod_param param get_param pts else Some [].
