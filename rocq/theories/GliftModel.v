(** Lifting of a Groebner basis over the rationals from its images modulo primes.
    Source: /repo/src/msolve/lifting-gb.c ratrecon_gb l.1041-1117 and the functions it calls l.785-1039 (choose_coef_to_lift, crt_lift_modgbs,
    set_recdata, ratrecon_lift_modgbs, verif_coef, verif_lifted_basis, verif_lifted_rational_wcoef, reconstructcoeff,
    incremental_dlift_crt_full), the loop of core_groebner_qq l.1270-1470, data_lift_init l.95-134; mod_p starts with 1 (msolve-data.c l.61).
    Simplifications: thrds = 1 (as core_groebner_qq sets it, l.1334); the arrays indexed by the polynomials are one list of records; the
    residues and the primes are lists with the newest first; all polynomials are lifted (dl->S = 0, lend = end = npol); the primes and the
    images are the input of the loop (C08 is about the choice of primes, C23/C50 about the images); whether the witness coefficients are
    reconstructed in a round depends on timings (dl->rr), it is part of the input; counters do not overflow. None: undefined operation. *)
From Coq Require Import ZArith Arith List Bool.
From Verif Require Import ModInvModel CrtModel.
Import ListNotations.
Open Scope Z_scope.

(** One polynomial: residues cf_32 (for each coefficient, newest prime first), cf_qq, lm; index of the witness coefficient, its lift modulo
    mod_p, its reconstruction; counters check1, check2 *)
Record pol := { g_img : list (list Z); g_qq : list (Z * Z); g_lm : Z; g_coef : nat; g_crt : Z; g_num : Z; g_den : Z; g_c1 : nat; g_c2 : nat }.
(** State: primes (newest first, the learning prime last), polynomials, gden, start, lstart, mod_p *)
Record lift := { l_primes : list Z; l_pols : list pol; l_gden : Z; l_start : nat; l_lstart : nat; l_mod : Z }.
Definition set_c1 (n : nat) (g : pol) : pol := {| g_img := g_img g; g_qq := g_qq g; g_lm := g_lm g; g_coef := g_coef g; g_crt := g_crt g; g_num := g_num g; g_den := g_den g; g_c1 := n; g_c2 := g_c2 g |}.
Definition set_c2 (n : nat) (g : pol) : pol := {| g_img := g_img g; g_qq := g_qq g; g_lm := g_lm g; g_coef := g_coef g; g_crt := g_crt g; g_num := g_num g; g_den := g_den g; g_c1 := g_c1 g; g_c2 := n |}.
Definition set_qq (q : list (Z * Z)) (lm : Z) (g : pol) : pol := {| g_img := g_img g; g_qq := q; g_lm := lm; g_coef := g_coef g; g_crt := g_crt g; g_num := g_num g; g_den := g_den g; g_c1 := g_c1 g; g_c2 := g_c2 g |}.
Definition set_crt (x : Z) (g : pol) : pol := {| g_img := g_img g; g_qq := g_qq g; g_lm := g_lm g; g_coef := g_coef g; g_crt := x; g_num := g_num g; g_den := g_den g; g_c1 := g_c1 g; g_c2 := g_c2 g |}.
Definition set_rat (n d : Z) (g : pol) : pol := {| g_img := g_img g; g_qq := g_qq g; g_lm := g_lm g; g_coef := g_coef g; g_crt := g_crt g; g_num := n; g_den := d; g_c1 := g_c1 g; g_c2 := g_c2 g |}.

(** l.955-966: coef == num / den mod prime; the residues are 32-bit words, the product a 64-bit word *)
Definition verif_coef (num den prime coef : Z) : option bool :=
  if prime =? 0 then None else
  let? lc := mod_p_inverse_32 (den mod prime) prime in
  Some ((((num mod prime) * lc) mod 2 ^ 64) mod prime =? coef).
(** the newest residue of coefficient [i] *)
Definition newest (g : pol) (i : nat) : option Z := let? r := nth_error (g_img g) i in hd_error r.

(** l.1005-1029: from polynomial k = lstart on, [lend] polynomials in all; result: polynomials, start *)
Fixpoint verif_wcoef (prime : Z) (lend : nat) (l : list pol) (k start : nat) : option (list pol * nat) :=
  match l with
  | [] => Some ([], start)
  | g :: r =>
      if (g_c1 g =? 0)%nat then Some (l, start) else
      let? coef := newest g (g_coef g) in
      let? b := verif_coef (g_num g) (g_den g) prime coef in
      if negb b then Some (map (set_c1 0) l, k)
      else let? s := verif_wcoef prime lend r (S k) (Nat.min (start + 1) lend) in Some (set_c1 (S (g_c1 g)) g :: fst s, snd s)
  end.

(** l.979-994: all the coefficients of one polynomial *)
Fixpoint verif_coefs (prime lm : Z) (qq : list (Z * Z)) (img : list (list Z)) : option bool :=
  match qq, img with
  | [], [] => Some true
  | (n, d) :: qq', r :: img' =>
      let? coef := hd_error r in
      let? b := verif_coef n (lm * d) prime coef in
      if b then verif_coefs prime lm qq' img' else Some false
  | _, _ => None
  end.
Fixpoint verif_basis_loop (prime : Z) (l : list pol) : option (list pol * bool) :=
  match l with
  | [] => Some ([], true)
  | g :: r =>
      if (1 <=? g_c1 g)%nat && (0 <? g_c2 g)%nat && (g_c2 g <? 2)%nat then
        let? b := verif_coefs prime (g_lm g) (g_qq g) (g_img g) in
        if b then let? s := verif_basis_loop prime r in Some (set_c2 (S (g_c2 g)) g :: fst s, snd s)
        else Some (set_c2 0 g :: r, false)
      else let? s := verif_basis_loop prime r in Some (g :: fst s, snd s)
  end.
(** l.968-1003; NBCHECK = 2. Result: polynomials, gden, b *)
Definition verif_lifted_basis (prime : Z) (l : list pol) (gden : Z) : option (list pol * Z * bool) :=
  let? e := nth_error (rev l) 0 in
  if (g_c1 e =? 0)%nat then Some (l, gden, true)
  else let? s := verif_basis_loop prime l in Some (fst s, (if snd s then gden else 1), snd s).

(** l.1050-1057: the first polynomial with check2 = 0 *)
Fixpoint first_c2 (l : list pol) (k d : nat) : nat := match l with [] => d | g :: r => if (g_c2 g =? 0)%nat then k else first_c2 r (S k) d end.

(** mpz_root(_, _, 3): the integer cubic root, bit by bit *)
Fixpoint root3_loop (b : nat) (r n : Z) : Z :=
  match b with
  | O => r
  | S b' => let r' := r + 2 ^ Z.of_nat b' in root3_loop b' (if r' ^ 3 <=? n then r' else r) n
  end.
Definition root3 (n : Z) : Z := root3_loop (Z.to_nat (Z.log2 n + 2)) 0 n.
(** l.885-907: (N1, D1, N2, D2) *)
Definition set_recdata (lstart : nat) (m : Z) : option (Z * Z * (Z * Z)) :=
  let h := m / 2 in
  if (lstart =? 0)%nat then let s := Z.sqrt h in Some (s, s, (s, s))
  else let s := Z.sqrt h in let d := root3 h in if d =? 0 then None else Some (h / d, d, (s, s)).

(** l.865-874: the residues of one coefficient for all the primes but the newest, for which the array still holds 0 *)
Definition crt_value (primes : list Z) (res : list Z) : option Z :=
  match primes, res with
  | p :: ps, _ :: rs => let? x := crt_fold true (0, 1) (combine rs ps ++ [(0, p)]) in Some (fst x)
  | _, _ => None
  end.
(** l.925-938: reconstruction of the coefficients; result: cf_qq, lcm of the denominators, success. On failure the coefficients behind
    the one that failed keep their old value *)
Fixpoint lift_coefs (primes : list Z) (m den N D : Z) (img : list (list Z)) (old : list (Z * Z)) (tmp : Z) : option (list (Z * Z) * Z * bool) :=
  match img, old with
  | [], [] => Some ([], tmp, true)
  | res :: img', o :: old' =>
      let? u := crt_value primes res in
      let? r := ratreconwden u m den N D in
      let '(b, n, d) := r in
      if b then let? s := lift_coefs primes m den N D img' old' (Z.lcm tmp d) in let '(q, t, b') := s in Some ((n, d) :: q, t, b')
      else Some (o :: old', tmp, false)
  | _, _ => None
  end.
(** l.939-946 *)
Definition scale (tmp : Z) (q : list (Z * Z)) : list (Z * Z) := map (fun nd => (fst nd * tmp / snd nd, 1)) q.
Fixpoint lift_loop (primes : list Z) (m N D : Z) (l : list pol) (k e : nat) (gden : Z) : option (list pol * nat * Z) :=
  match l with
  | [] => Some ([], e, gden)
  | g :: r =>
      if (1 <=? g_c1 g)%nat then
        let? s := lift_coefs primes m (g_den g) N D (g_img g) (g_qq g) 1 in
        let '(q, tmp, b) := s in
        if b then let? t := lift_loop primes m N D r (S k) e gden in
                  let '(r', st, gd) := t in Some (set_c2 1 (set_qq (scale tmp q) (g_den g * tmp) g) :: r', st, gd)
        else Some (set_c2 0 (set_qq q (g_lm g) g) :: r, k, 1)
      else Some (l, k, gden)
  end.

(** l.835-848 *)
Fixpoint incr_crt (m prime : Z) (l : list pol) : option (list pol) :=
  match l with
  | [] => Some []
  | g :: r =>
      let? c := newest g (g_coef g) in
      let? x := mpz_CRT_ui (g_crt g) m c prime (m * prime) true in
      let? r' := incr_crt m prime r in Some (set_crt x g :: r')
  end.

(** l.1031-1039 and above; result: success, num, den, gden *)
Definition reconstructcoeff (crt m gden : Z) (N1 D1 N2 D2 : Z) : option (bool * Z * Z * Z) :=
  let? r := ratreconwden crt m gden N1 D1 in
  let '(b, n, d) := r in
  if b then let d1 := d * gden in let t := Z.gcd d1 n in
            if t =? 0 then None else Some (true, n / t, d1 / t, d1 / t)
  else let? r2 := ratrecon crt m N2 D2 in
       let '(b2, n2, d2) := r2 in Some (b2, n2, d2, if b2 then d2 else gden).
Fixpoint rec_loop (m N1 D1 N2 D2 : Z) (l : list pol) (gden : Z) : option (list pol * Z) :=
  match l with
  | [] => Some ([], gden)
  | g :: r =>
      let? s := reconstructcoeff (g_crt g) m gden N1 D1 N2 D2 in
      let '(b, n, d, gd) := s in
      if b then let? t := rec_loop m N1 D1 N2 D2 r gd in Some (set_c1 (S (g_c1 g)) (set_rat n d g) :: fst t, snd t)
      else Some (set_c1 0 (set_rat n d g) :: r, gd)
  end.

(** l.1041-1117: one round with the newest prime *)
Definition ratrecon_gb (recon : bool) (s : lift) : option lift :=
  let? prime := hd_error (l_primes s) in
  let n := length (l_pols s) in
  let? v := verif_wcoef prime n (skipn (l_lstart s) (l_pols s)) (l_lstart s) (l_start s) in
  let pols := firstn (l_lstart s) (l_pols s) ++ fst v in
  let start := snd v in
  let? w := verif_lifted_basis prime pols (l_gden s) in
  let '(pols, gden, b) := w in
  let lstart := if b then l_lstart s else first_c2 pols 0 (l_lstart s) in
  let? x := (if (lstart =? start)%nat then Some (pols, start, gden) else
             let? rd := set_recdata lstart (l_mod s) in
             let seg := firstn (start - lstart) (skipn lstart pols) in
             let? t := lift_loop (l_primes s) (l_mod s) (fst (fst rd)) (snd (fst rd)) seg lstart start gden in
             let '(seg', start', gden') := t in
             Some (firstn lstart pols ++ seg' ++ skipn (Nat.max lstart start) pols, start', gden')) in
  let '(pols, start, gden) := x in
  let lstart := start in
  let? pols := incr_crt (l_mod s) prime pols in
  let m := l_mod s * prime in
  let gden := if (lstart =? 0)%nat then 1 else gden in
  let? rd := set_recdata lstart m in
  let? y := (if recon then
               let? t := rec_loop m (fst (fst rd)) (snd (fst rd)) (fst (snd rd)) (snd (snd rd)) (skipn lstart pols) gden in
               Some (firstn lstart pols ++ fst t, snd t)
             else Some (pols, gden)) in
  Some {| l_primes := l_primes s; l_pols := fst y; l_gden := snd y; l_start := start; l_lstart := lstart; l_mod := m |}.

(** modpgbs_set: one more residue for each coefficient (l.533, l.538-539) *)
Fixpoint push_res (img : list (list Z)) (c : list Z) : option (list (list Z)) :=
  match img, c with [], [] => Some [] | r :: img', x :: c' => let? t := push_res img' c' in Some ((x :: r) :: t) | _, _ => None end.
Definition push_pol (g : pol) (c : list Z) : option pol :=
  let? i := push_res (g_img g) c in
  Some {| g_img := i; g_qq := g_qq g; g_lm := g_lm g; g_coef := g_coef g; g_crt := g_crt g; g_num := g_num g; g_den := g_den g; g_c1 := g_c1 g; g_c2 := g_c2 g |}.
Fixpoint push_pols (l : list pol) (cs : list (list Z)) : option (list pol) :=
  match l, cs with [], [] => Some [] | g :: l', c :: cs' => let? g' := push_pol g c in let? t := push_pols l' cs' in Some (g' :: t) | _, _ => None end.
(** What one prime gives: the coefficients of all polynomials, or nothing when it is found bad *)
Record input := { i_prime : Z; i_img : option (list (list Z)); i_recon : bool }.
Definition round (i : input) (s : lift) : option lift :=
  match i_img i with
  | None => Some s
  | Some cs =>
      let? p := push_pols (l_pols s) cs in
      ratrecon_gb (i_recon i) {| l_primes := i_prime i :: l_primes s; l_pols := p; l_gden := l_gden s; l_start := l_start s; l_lstart := l_lstart s; l_mod := l_mod s |}
  end.
(** l.1437-1443 *)
Definition finished (s : lift) : bool := forallb (fun g => (2 <=? g_c2 g)%nat) (l_pols s).
(** l.1296-1470: until the basis is checked or the input ends *)
Fixpoint lift_all (ins : list input) (s : lift) : option (lift * bool) :=
  match ins with
  | [] => Some (s, false)
  | i :: r => let? s' := round i s in if finished s' then Some (s', true) else lift_all r s'
  end.

(** l.785-799: the first nonzero coefficient among all but the last one, otherwise 0 *)
Fixpoint choose_coef (c : list Z) (d : nat) : nat :=
  match c with x :: ((_ :: _) as r) => if x =? 0 then choose_coef r (S d) else d | _ => 0%nat end.
(** gb_modpoly_init l.162-197, data_lift_init: the state after the learning prime *)
Definition init_pol (c : list Z) : pol :=
  {| g_img := map (fun x => [x]) c; g_qq := map (fun _ => (0, 0)) c; g_lm := 1; g_coef := choose_coef c 0; g_crt := 0; g_num := 0; g_den := 0; g_c1 := 0; g_c2 := 0 |}.
Definition init_lift (p0 : Z) (cs : list (list Z)) : lift :=
  {| l_primes := [p0]; l_pols := map init_pol cs; l_gden := 1; l_start := 0; l_lstart := 0; l_mod := 1 |}.
