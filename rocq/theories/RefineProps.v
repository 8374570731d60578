(** Property C32: refining isolating intervals keeps the roots (and C31: number of records). *)
From Coq Require Import ZArith List Arith Bool Lia Reals Lra.
From Verif Require Import ModInvModel PolySpec PolyProofs TaylorModel DescModel IsolSpec IsolModel IsolProofs IsolBisProofs IsolBoundProofs IsolSepProofs IsolTermProofs IsolProps
  EvalModel EvalProofs RefineModel RefineProofs RefineRunProofs.
Import ListNotations.
Open Scope R_scope.

(** The set described by a record. *)
Definition set_of (i : interval) : R -> Prop := in_record (numer i) (ik i) (isexact i).

(** ** One interval *)
(** Whatever the polynomial and the interval, as long as the values at the two ends have opposite signs, and whatever the
    precision asked for: the refinement ends; it returns an interval inside the first one, of width at most 2^(-prec), with
    opposite signs at its ends again; or an exact root inside the interval, with the polynomial divided by it. *)
Theorem C32_interval u n k prec : lead_ok u -> let rt := {| numer := n; ik := k; isexact := false |} in
  let lo := IZR n * powerRZ 2 (- Z.max 0 k) in let hi := lo + powerRZ 2 (- k) in
  zeval u lo * zeval u hi < 0 ->
  exists s f0, (forall fuel, (f0 <= fuel)%nat -> refine_pos_root fuel u rt prec = Some s) /\
   (let j := clear_k (rint s) in let lo' := IZR (numer j) * powerRZ 2 (- Z.max 0 (ik j)) in let hi' := lo' + powerRZ 2 (- ik j) in
    (isexact j = false /\ rpol s = u /\ (prec <= ik j)%Z /\ lo <= lo' /\ hi' <= hi /\ zeval u lo' * zeval u hi' < 0) \/
    (isexact j = true /\ (0 <= ik j)%Z /\ lo < lo' < hi /\ zeval u lo' = 0 /\ length u = S (length (rpol s)) /\ exists c, c <> 0 /\ forall x, c * zeval u x = (x - lo') * zeval (rpol s) x)).
Proof.
  intros Hl rt lo hi Hs. assert (Elo : lo = record_lo rt) by (rewrite record_lo_eq; reflexivity). assert (Ehi : hi = record_hi rt) by (rewrite record_hi_eq, <- Elo; reflexivity).
  rewrite Ehi, Elo in Hs. destruct (refine_pos_ok u rt prec Hl eq_refl Hs) as (s0 & s & E0 & E1 & R & f0 & F). exists s, f0. split; [assumption|].
  unfold sub_of, exact_of, okst in R. rewrite E0, E1 in R. cbv zeta. fold (p2 (- Z.max 0 (ik (clear_k (rint s))))) (p2 (- ik (clear_k (rint s)))). rewrite <- record_lo_eq, <- record_hi_eq. rewrite Ehi, Elo.
  destruct R as [[(R1 & (R2 & R3 & R4 & R5) & R6 & R7 & _) Rk]|(x & X1 & X2 & X3 & X4 & (X5 & _ & c & X6 & X7) & _)].
  - left. rewrite clear_k_id by (rewrite R2; discriminate). repeat (split; [assumption|]). rewrite R1 in *.
    apply (sgn_trans (IZR (rva s)) _ (IZR (rvb s))); [assumption|assumption|]. rewrite <- mult_IZR. apply IZR_lt. assumption.
  - right. assert (Jx : isexact (clear_k (rint s)) = true /\ (0 <= ik (clear_k (rint s)))%Z).
    { unfold clear_k. rewrite X3. cbn [andb]. destruct (Z.ltb_spec (ik (rint s)) 0); cbn [isexact ik]; [split; [reflexivity|lia]|split; assumption]. }
    destruct Jx as [Jx Jk]. assert (Ex : record_lo (clear_k (rint s)) = x). { apply X4. unfold record_set, in_record. rewrite Jx, record_lo_eq, Z.max_r by assumption. reflexivity. }
    rewrite Ex. split; [assumption|]. split; [assumption|]. split; [assumption|]. split; [assumption|]. split; [assumption|]. exists c. auto.
Qed.
Print Assumptions C32_interval.
(** x^2 - 2 on (1, 2) to 20 bits; x^2 - 9 on (0, 8), where the root is found exactly. *)
Example C32_interval_ex :
  option_map (fun s => rint s) (refine_pos_root 30 [-2; 0; 1]%Z {| numer := 1; ik := 0; isexact := false |} 20) = Some {| numer := 5931641; ik := 22; isexact := false |} /\
  option_map (fun s => (rpol s, clear_k (rint s))) (refine_pos_root 30 [-9; 0; 1]%Z {| numer := 0; ik := -3; isexact := false |} 20) = Some ([3; 1]%Z, {| numer := 6; ik := 1; isexact := true |}).
Proof. split; vm_compute; reflexivity. Qed.

(** ** All the real roots *)
(** For every polynomial with simple roots and every precision >= 0: isolation followed by refinement ends; the final
    records isolate the roots; there is one for each record of the isolation, it is contained in it, it contains a root (the
    same one therefore), and it is exact or of width at most 2^(-prec). *)
Theorem C32_refine p prec : lead_ok p -> simple_roots p -> (0 <= prec)%Z ->
  exists l out f0, (forall fuel, (f0 <= fuel)%nat -> isolate fuel p = Some l /\ real_roots fuel p prec = Some out) /\
    isolates (zeval p) (map set_of out) /\
    Forall2 (fun i j => (forall x, set_of j x -> set_of i x) /\ (exists x, set_of j x /\ zeval p x = 0) /\
                        (isexact j = true /\ (0 <= ik j)%Z \/ isexact j = false /\ (prec <= ik j)%Z /\ forall x y, set_of j x -> set_of j y -> Rabs (x - y) < powerRZ 2 (- prec))) l out.
Proof.
  intros Hl HS Hp. destruct (real_roots_total p prec Hl HS) as (l & out & f0 & F & [[K _]|[_ R]]); [lia|]. exists l, out, f0. split; [assumption|].
  destruct (isolate_sound _ _ _ Hl (proj1 (F f0 (le_n _)))) as [I _]. split; [exact (refined_isolates _ _ _ _ I R)|].
  clear - R Hp. induction R as [|i j l out (R1 & R2 & R3) R IH]; constructor; [|assumption]. split; [exact R1|]. split; [exact R2|].
  destruct R3 as [[R3 R4]|[R3 R4]]; [left; auto|right]. split; [assumption|]. split; [assumption|]. intros x y Hx Hy. apply (proj1 (record_set_open j x R3)) in Hx. apply (proj1 (record_set_open j y R3)) in Hy.
  rewrite record_hi_eq in Hx, Hy. pose proof (p2_le (- ik j) (- prec) ltac:(lia)). fold (p2 (- prec)). apply Rabs_def1; lra.
Qed.
Print Assumptions C32_refine.
(** Any result, with whatever fuel it was obtained, is that one; with a negative precision nothing is refined. *)
Theorem C32_sound p prec fuel out : lead_ok p -> simple_roots p -> real_roots fuel p prec = Some out -> isolates (zeval p) (map set_of out).
Proof.
  intros Hl HS H. destruct (real_roots_total p prec Hl HS) as (l & out' & f0 & F & D).
  assert (out = out'). { pose proof (real_roots_mono fuel (Nat.max fuel f0) _ _ _ (Nat.le_max_l _ _) H) as H1. pose proof (proj2 (F (Nat.max fuel f0) (Nat.le_max_r _ _))) as H2. congruence. }
  subst out'. destruct (isolate_sound _ _ _ Hl (proj1 (F f0 (le_n _)))) as [I _]. destruct D as [[_ ->]|[_ R]]; [exact I|exact (refined_isolates _ _ _ _ I R)].
Qed.
Print Assumptions C32_sound.
Theorem C32_negative_precision p prec : lead_ok p -> simple_roots p -> (prec < 0)%Z ->
  exists l f0, forall fuel, (f0 <= fuel)%nat -> isolate fuel p = Some l /\ real_roots fuel p prec = Some l.
Proof. intros Hl HS Hp. destruct (real_roots_total p prec Hl HS) as (l & out & f0 & F & [[_ ->]|[K _]]); [eauto|lia]. Qed.
Print Assumptions C32_negative_precision.

(** x^4 - 2000 x^2 + 1000 x - 1 to 20 bits; (x-1)(x+1)(x+2), whose roots are all found exactly. *)
Example C32_ex :
  lead_ok [-1; 1000; -2000; 0; 1]%Z /\
  real_roots 60 [-1; 1000; -2000; 0; 1]%Z 20 = Some [{| numer := -6035677195; ik := 27; isexact := false |}; {| numer := 1050; ik := 20; isexact := false |};
    {| numer := 8372841; ik := 24; isexact := false |}; {| numer := 93258749; ik := 21; isexact := false |}] /\
  real_roots 60 [-2; -1; 2; 1]%Z 5 = Some [{| numer := -2; ik := 0; isexact := true |}; {| numer := -2; ik := 1; isexact := true |}; {| numer := 1; ik := 0; isexact := true |}].
Proof. split; [split; [discriminate|cbn; lia]|]. split; vm_compute; reflexivity. Qed.
(** A polynomial meeting the hypotheses. *)
Example C32_hyp_ex : lead_ok [-2; 0; 1]%Z /\ simple_roots [-2; 0; 1]%Z /\
  real_roots 40 [-2; 0; 1]%Z 10 = Some [{| numer := -1449; ik := 10; isexact := false |}; {| numer := 1448; ik := 10; isexact := false |}].
Proof.
  split; [split; [discriminate|cbn; lia]|]. split; [|vm_compute; reflexivity]. intros x Zx. change (pder [-2; 0; 1]%Z) with [0; 2]%Z. unfold root, zeval in *. cbn [map peval] in *. intros N. assert (x = 0) by lra. subst x. lra.
Qed.

(** ** C31: room for the records *)
(** There are never more records than the degree (the C code allocates room for [deg] records). *)
Lemma isolates_count f l : isolates f l -> exists xs, length xs = length l /\ NoDup xs /\ forall x, In x xs -> f x = 0.
Proof.
  intros (I1 & I2 & _). assert (G : exists xs, Forall2 (fun (A : R -> Prop) x => A x /\ f x = 0) l xs).
  { clear I1. induction I2 as [|A l (x & X1 & X2 & _) I2 (xs & IH)]; [exists []; constructor|]. exists (x :: xs). constructor; auto. }
  destruct G as (xs & G). exists xs. split; [clear - G; induction G; cbn [length]; congruence|]. split.
  - clear I2. induction G as [|A x l xs [X1 X2] G IH]; [constructor|]. inversion_clear I1 as [|? ? F O]. constructor; [|auto]. intros N.
    clear - F G N X1. induction G as [|B y l xs [Y1 Y2] G IH]; [destruct N|]. inversion_clear F as [|? ? F1 F2]. destruct N as [->|N]; [pose proof (F1 x x X1 Y1); lra|auto].
  - clear I1 I2. induction G as [|A x l xs [X1 X2] G IH]; intros z []; [subst; assumption|auto].
Qed.
Theorem C31_capacity fuel p l : lead_ok p -> isolate fuel p = Some l -> (length l <= length p - 1)%nat.
Proof.
  intros Hl H. destruct (isolate_sound _ _ _ Hl H) as [I _]. destruct (isolates_count _ _ I) as (xs & L & N & Z). rewrite map_length in L.
  assert (length xs < length (map IZR p))%nat; [|rewrite map_length in *; lia]. apply roots_le; [|assumption|exact Z].
  destruct (C30_bound p Hl) as (b & _ & _ & Hb). exists (p2 b). specialize (Hb (p2 b) (Rle_refl _)). intros E. unfold zeval in Hb. rewrite E in Hb. lra.
Qed.
Print Assumptions C31_capacity.
