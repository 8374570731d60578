(** Lifting of the parametrisation over the rationals.
    Source: /repo/src/msolve/msolve.c initialize_mpz_param l.776-807, normalize_nmod_param l.913-941, set_mpz_param_nmod l.947-971, crt_lift_mpz_upoly and crt_lift_mpz_param
    l.973-1000, new_rational_reconstruction l.1173-1399, check_param_modular l.1451-1490, the loop of msolve_trace_qq l.2166-2493;
    /repo/src/msolve/lifting.c crt_lift_trace_det l.416-424, rat_recon_trace_det l.535-637, check_trace and check_det l.639-663,
    check_trace_det_data l.677-704. The reconstruction of a vector and the checks modulo a prime are those of LiftModel.
    Simplifications: the multiplication matrix is not lifted (lift_matrix = 0, the default, lifting.c l.254-259), so that the witness coefficients
    of the matrix (lifting.c l.565-588) have no effect and are left out. The arrays tmp_num and tmp_den are written before they are read. A prime
    is an input: its image, or none when it is found bad; whether the reconstruction is tried depends on the time and is an input too.
    None: a division by zero or a read out of bounds. *)
From Coq Require Import ZArith Arith List Bool.
From Verif Require Import FpSpec NmodModel ModInvModel CrtModel LiftModel FglmModel QparSpec.
Import ListNotations.
Open Scope Z_scope.

(** mpz_root(_, _, k): the integer root, bit by bit *)
Fixpoint root_loop (k : Z) (b : nat) (r n : Z) : Z :=
  match b with O => r | S b' => let r' := r + 2 ^ Z.of_nat b' in root_loop k b' (if r' ^ k <=? n then r' else r) n end.
Definition root (k n : Z) : Z := root_loop k (Z.to_nat (Z.log2 n + 2)) 0 n.

(** trace and det: index in the eliminating polynomial, CRT value, fraction, counter *)
Record wit := { w_idx : nat; w_crt : Z; w_num : Z; w_den : Z; w_done : nat }.
Definition set_done (n : nat) (w : wit) : wit := {| w_idx := w_idx w; w_crt := w_crt w; w_num := w_num w; w_den := w_den w; w_done := n |}.
(** lifting.c l.639-650, l.652-663 *)
Definition check_wit (w : wit) (c p : Z) : option bool :=
  if p =? 0 then None else
  let? lc := mod_p_inverse_32 (w_den w mod p) p in Some ((((w_num w mod p) * lc) mod 2 ^ 64) mod p =? c).
(** lifting.c l.686-695, l.696-704; the boolean tells that maxrec is set *)
Definition update_wit (w : wit) (c p : Z) : option (wit * bool) :=
  if (w_done w =? 1)%nat then let? b := check_wit w c p in Some (if b then (set_done 2 w, true) else (set_done 0 w, false)) else Some (w, false).
(** lifting.c l.598-612, l.619-632 *)
Definition recon_wit (w : wit) (m gden N D : Z) : option (bool * wit) :=
  let? r := ratreconwden (w_crt w) m gden N D in
  let '(b, n, d) := r in
  if b then let d' := d * gden in let g := Z.gcd n d' in
            if g =? 0 then None else Some (true, {| w_idx := w_idx w; w_crt := w_crt w; w_num := n / g; w_den := d' / g; w_done := 1 |})
  else Some (false, set_done 0 w).
(** lifting.c l.594-636: trace, det, gden *)
Definition rat_recon_trace_det (tr dt : wit) (m gden N D : Z) : option (wit * wit * Z) :=
  let? t := (if (w_done tr <? 2)%nat then recon_wit tr m gden N D else Some (true, tr)) in
  if negb (fst t) then Some (snd t, dt, gden) else
  if (w_done dt <? 2)%nat && negb (w_done (snd t) =? 0)%nat then
    let? e := recon_wit dt m gden N D in Some (snd t, snd e, if fst e then gden else 1)
  else Some (snd t, dt, gden).

(** The state: modulus; CRT values (tmp_mpz_param); the parametrisation (mpz_param), which of its parts are lifted; guessed_den, maxrec; trace, det *)
Record state := { s_m : Z; s_ce : list Z; s_cc : list (list Z); s_elim : list Z; s_coords : list (list Z); s_cfs : list Z;
                  s_le : bool; s_lc : list bool; s_gden : Z; s_maxrec : nat; s_tr : wit; s_dt : wit }.

(** l.973-985: coefficient by coefficient; the array of the residues is as long as that of the CRT values *)
Fixpoint crt_upoly (m p : Z) (pol nm : list Z) : option (list Z) :=
  match pol, nm with
  | [], _ => Some []
  | x :: pol', c :: nm' => let? y := mpz_CRT_ui x m c p (m * p) false in let? r := crt_upoly m p pol' nm' in Some (y :: r)
  | _, [] => None
  end.
Fixpoint crt_coords (m p : Z) (cc : list (list Z)) (nm : list (nat * list Z)) : option (list (list Z)) :=
  match cc, nm with
  | [], _ => Some []
  | c :: cc', a :: nm' => let? y := crt_upoly m p c (snd a) in let? r := crt_coords m p cc' nm' in Some (y :: r)
  | _, [] => None
  end.

(** One call of rational_reconstruction_upoly_with_denom on the vector [pol], writing to [old] *)
Definition recon_upoly (old pol : list Z) (len : nat) (m : Z) (maxrec : nat) (gden N D : Z) : option (vres * Z * Z) :=
  if (maxrec <? length pol)%nat && (len <=? length pol)%nat then
    rational_reconstruction_wden (co old) 0 (co pol) len m maxrec (fun _ => 0) (fun _ => 0) gden N D
  else None.
Definition written (old : list Z) (v : vres) : list Z := map (v_recons v) (seq 0 (length old)).

(** l.1279-1312: eliminating polynomial; result: success, new elim, maxrec *)
Definition recon_elim (old pol : list Z) (m : Z) (maxrec : nat) (gden : Z) : option (bool * list Z * nat) :=
  let D := root 3 m in
  if D =? 0 then None else
  let? r := recon_upoly old pol (length pol) m maxrec gden (m / D / 2) D in
  let v := fst (fst r) in
  if v_ok v then Some (true, written old v, v_maxrec v) else
  let D := root 16 m in
  if D =? 0 then None else
  let? r := recon_upoly old pol (length pol) m (v_maxrec v) gden (m / D / 2) D in
  let v := fst (fst r) in
  if v_ok v then Some (true, written old v, v_maxrec v) else Some (false, old, v_maxrec v).

(** l.1336-1372: one coordinate; result: (success, elements, denominator), maxrec, N, D *)
Definition recon_coord (nc : nat) (old pol : list Z) (len : nat) (m : Z) (maxrec : nat) (gden N D : Z) : option (vres * Z * Z) :=
  let? r := recon_upoly old pol len m maxrec gden N D in
  if v_ok (fst (fst r)) then Some r else
  let D := 2 ^ Z.of_nat nc in
  let N := m / 2 / D in
  let? r := recon_upoly old pol len m (v_maxrec (fst (fst r))) gden N D in
  if v_ok (fst (fst r)) then Some r else
  let N := m / 2 in
  let D := root 16 N in
  if D =? 0 then None else
  recon_upoly old pol len m (v_maxrec (fst (fst r))) gden (N / D) D.
(** l.1333-1391: the coordinates from number k on; [sg] is the numerator of c (l.1322), which is not set again. Result: coordinates, cfs, lifted
    flags, maxrec, success *)
Fixpoint coords_loop (nc didx : nat) (m gden : Z) (N D sg : Z) (maxrec : nat) (cs pols : list (list Z)) (cfs : list Z) (lc : list bool) (nm : list (nat * list Z))
    : option (list (list Z) * list Z * list bool * nat * bool) :=
  match cs, pols, cfs, lc, nm with
  | [], _, _, _, _ => Some ([], [], [], maxrec, true)
  | c :: cs', pol :: pols', f :: cfs', l :: lc', a :: nm' =>
      let mr := Nat.min (didx - 1) (fst a - 1) in
      if l then
        let? r := coords_loop nc didx m gden N D sg mr cs' pols' cfs' lc' nm' in
        let '(rc, rf, rl, mr', b) := r in Some (c :: rc, f :: rf, l :: rl, mr', b)
      else
        let? r := recon_coord nc c pol (fst a) m mr gden N D in
        let '(v, N', D') := r in
        if v_ok v then
          if v_den v =? 0 then None else
          let sg' := if v_den v <? 0 then - sg else sg in
          let c' := map (Z.mul sg') (written c v) in
          let? r := coords_loop nc didx m gden N' D' sg' (v_maxrec v) cs' pols' cfs' lc' nm' in
          let '(rc, rf, rl, mr', b) := r in Some (c' :: rc, Z.abs (v_den v) :: rf, true :: rl, mr', b)
        else Some (cs, cfs, false :: lc', v_maxrec v, false)
  | _, _, _, _, _ => None
  end.

(** new_rational_reconstruction *)
Definition recon (s : state) (im : image) (doit : bool) : option (state * bool) :=
  let p := im_p im in
  (* l.1185-1193 *)
  let? tm := nth_error (im_elim im) (w_idx (s_tr s)) in
  let? dm := nth_error (im_elim im) (w_idx (s_dt s)) in
  let? t := update_wit (s_tr s) tm p in
  let? e := update_wit (s_dt s) dm p in
  let maxrec := if snd t || snd e then w_idx (s_dt s) else s_maxrec s in
  (* l.1204-1221 *)
  let m := s_m s * p in
  let? ce := crt_upoly (s_m s) p (s_ce s) (im_elim im) in
  let? cc := crt_coords (s_m s) p (s_cc s) (im_coords im) in
  let? tc := mpz_CRT_ui (w_crt (fst t)) (s_m s) tm p m false in
  let? dc := mpz_CRT_ui (w_crt (fst e)) (s_m s) dm p m false in
  let tr := {| w_idx := w_idx (fst t); w_crt := tc; w_num := w_num (fst t); w_den := w_den (fst t); w_done := w_done (fst t) |} in
  let dt := {| w_idx := w_idx (fst e); w_crt := dc; w_num := w_num (fst e); w_den := w_den (fst e); w_done := w_done (fst e) |} in
  let s1 := {| s_m := m; s_ce := ce; s_cc := cc; s_elim := s_elim s; s_coords := s_coords s; s_cfs := s_cfs s; s_le := s_le s; s_lc := s_lc s;
               s_gden := s_gden s; s_maxrec := maxrec; s_tr := tr; s_dt := dt |} in
  if negb doit then Some (s1, false) else
  (* l.1230-1265 *)
  let N := Z.sqrt ((m - 1) / 2) in
  let gden := if (1 <? w_done tr)%nat then (if (1 <? w_done dt)%nat then Z.lcm (w_den tr) (w_den dt) else w_den tr)
              else if (1 <? w_done dt)%nat then w_den dt else s_gden s in
  if negb ((1 <? w_done tr)%nat && (1 <? w_done dt)%nat) then
    let? r := rat_recon_trace_det tr dt m gden N N in
    let '(tr', dt', gden') := r in
    Some ({| s_m := m; s_ce := ce; s_cc := cc; s_elim := s_elim s; s_coords := s_coords s; s_cfs := s_cfs s; s_le := s_le s; s_lc := s_lc s;
             s_gden := gden'; s_maxrec := maxrec; s_tr := tr'; s_dt := dt' |}, false)
  else
    (* l.1277-1313 *)
    let? r := (if s_le s then Some (true, s_elim s, maxrec) else recon_elim (s_elim s) ce m maxrec gden) in
    let '(b, el, mr) := r in
    if negb b then
      Some ({| s_m := m; s_ce := ce; s_cc := cc; s_elim := s_elim s; s_coords := s_coords s; s_cfs := s_cfs s; s_le := false; s_lc := s_lc s;
               s_gden := gden; s_maxrec := mr; s_tr := tr; s_dt := dt |}, false)
    else
      (* l.1315-1398 *)
      let d := (length ce - 1)%nat in
      let? lcoef := nth_error el d in
      let lc := lcoef * Z.of_nat d in
      let N := Z.sqrt (m / 2) in
      let? q := coords_loop (length (s_coords s)) (w_idx dt) m lc N N 1 mr (s_coords s) cc (s_cfs s) (s_lc s) (im_coords im) in
      let '(cs, cfs, ls, mr', b') := q in
      Some ({| s_m := m; s_ce := ce; s_cc := cc; s_elim := el; s_coords := cs; s_cfs := cfs; s_le := true; s_lc := ls;
               s_gden := lc; s_maxrec := mr'; s_tr := tr; s_dt := dt |}, b').

(** l.1474-1489 *)
Fixpoint check_coords (undef lce : Z) (d : nat) (p : Z) (cs : list (list Z)) (cfs : list Z) (lc : list bool) (nm : list (nat * list Z)) : option (list bool * bool) :=
  match cs, cfs, lc, nm with
  | [], _, _, _ => Some ([], false)
  | c :: cs', f :: cfs', l :: lc', a :: nm' =>
      if check_param_nmod_poly undef (fst a) (co c) f lce (Z.of_nat d) (co (snd a)) p then Some (false :: lc', true)
      else let? r := check_coords undef lce d p cs' cfs' lc' nm' in Some (l :: fst r, snd r)
  | _, _, _, _ => None
  end.
(** l.1451-1490; [undef]: what mpz_invert leaves when there is no inverse. The boolean is the result 1 *)
Definition check_param_modular (undef : Z) (s : state) (im : image) : option (state * bool) :=
  let d := (length (s_elim s) - 1)%nat in
  let? c := check_unit_mpz_nmod_poly (S d) (co (s_elim s)) (co (im_elim im)) (im_p im) in
  if negb (c =? 0)%nat then
    Some ({| s_m := s_m s; s_ce := s_ce s; s_cc := s_cc s; s_elim := s_elim s; s_coords := s_coords s; s_cfs := s_cfs s; s_le := false; s_lc := map (fun _ => false) (s_lc s);
             s_gden := s_gden s; s_maxrec := s_maxrec s; s_tr := set_done 0 (s_tr s); s_dt := set_done 0 (s_dt s) |}, true)
  else
    let? r := check_coords undef (co (s_elim s) d) d (im_p im) (s_coords s) (s_cfs s) (s_lc s) (im_coords im) in
    Some ({| s_m := s_m s; s_ce := s_ce s; s_cc := s_cc s; s_elim := s_elim s; s_coords := s_coords s; s_cfs := s_cfs s; s_le := s_le s; s_lc := fst r;
             s_gden := s_gden s; s_maxrec := s_maxrec s; s_tr := s_tr s; s_dt := s_dt s |}, snd r).

(** One thread: l.2396-2450. Counters: nprimes, nbadprimes *)
Record loop := { l_s : state; l_rerun : bool; l_mcheck : bool; l_np : nat; l_nbad : nat }.
Record thread := { t_im : option image; t_undef : Z }.
Inductive out {A : Type} := Go (a : A) | Stop.
Arguments out : clear implicits.
Definition one_thread (doit : bool) (t : thread) (l : loop) : option (out loop) :=
  match t_im t with
  | None => let nb := S (l_nbad l) in
            if (l_np l <? nb)%nat then Some Stop
            else Some (Go {| l_s := l_s l; l_rerun := l_rerun l; l_mcheck := l_mcheck l; l_np := l_np l; l_nbad := nb |})
  | Some im =>
      let? c := (if l_rerun l then Some (l_s l, l_mcheck l) else check_param_modular (t_undef t) (l_s l) im) in
      if snd c then let? r := recon (fst c) im doit in Some (Go {| l_s := fst r; l_rerun := negb (snd r); l_mcheck := true; l_np := S (l_np l); l_nbad := l_nbad l |})
      else Some (Go {| l_s := fst c; l_rerun := l_rerun l; l_mcheck := false; l_np := S (l_np l); l_nbad := l_nbad l |})
  end.
Fixpoint threads (doit : bool) (ts : list thread) (l : loop) : option (out loop) :=
  match ts with
  | [] => Some (Go l)
  | t :: r => let? o := one_thread doit t l in match o with Stop => Some Stop | Go l' => threads doit r l' end
  end.
(** l.2255-2493: the batches of primes. Finished (with the state), too many bad primes, or the end of the input *)
Inductive res := Finished (s : state) | Bad | Running (l : loop).
Fixpoint run (bs : list (bool * list thread)) (l : loop) : option res :=
  match bs with
  | [] => Some (Running l)
  | b :: r => let? o := threads (fst b) (snd b) l in
              match o with Stop => Some Bad | Go l' => if l_rerun l' || l_mcheck l' then run r l' else Some (Finished (l_s l')) end
  end.

(** l.2183-2197: the witness indices; l.2166-2254: the state after the learning prime *)
Fixpoint down (l : list Z) (i : nat) : nat := match i with O => O | S j => if co l i =? 0 then down l j else i end.
Fixpoint up (l : list Z) (i n : nat) : nat := match n with O => i | S n' => if co l i =? 0 then up l (S i) n' else i end.
Definition init (im : image) : loop :=
  let d := (length (im_elim im) - 1)%nat in
  let ti := down (im_elim im) (3 * d / 4)%nat in
  let di := up (im_elim im) (2 * d / 3)%nat (d - 1 - 2 * d / 3)%nat in
  let w i := {| w_idx := i; w_crt := co (im_elim im) i; w_num := 0; w_den := 1; w_done := 0 |} in
  {| l_s := {| s_m := im_p im; s_ce := im_elim im; s_cc := map (fun a => firstn (fst a) (snd a) ++ repeat 0 (d - fst a)) (im_coords im);
               s_elim := repeat 0 (S d); s_coords := map (fun _ => repeat 0 d) (im_coords im); s_cfs := map (fun _ => 1) (im_coords im);
               s_le := false; s_lc := map (fun _ => false) (im_coords im); s_gden := 1; s_maxrec := 0; s_tr := w ti; s_dt := w di |};
     l_rerun := true; l_mcheck := true; l_np := 1; l_nbad := 0 |}.
(** l.2495-2503: the denominator of the output *)
Definition out_denom (s : state) : list Z := map (fun i => Z.of_nat i * co (s_elim s) i) (seq 1 (length (s_elim s) - 1)).

(** l.913-941 normalize_nmod_param, for one coordinate: multiplied by the derivative of the eliminating polynomial divided by its degree. The
    products of two residues fit 64 bits *)
Definition normalize_coord (p : Z) (e X : list Z) : option (list Z) :=
  let n := (length e - 1)%nat in
  let inv := zinv p (Z.of_nat n) in
  let den := map (fun i => (inv * ((Z.of_nat i * co e i) mod p)) mod p) (seq 1 n) in
  let? qr := ndivrem p (nmul p X den) e in Some (snd qr).
