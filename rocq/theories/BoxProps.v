(** Properties C34 and C35: the boxes written for the real solutions. *)
From Coq Require Import ZArith List Arith Bool Lia Reals Lra.
From Verif Require Import ModInvModel PolySpec PolyProofs TaylorModel DescModel IsolSpec IsolModel IsolProofs IsolBisProofs IsolBoundProofs IsolSepProofs IsolTermProofs
  EvalModel EvalProofs RefineModel RefineProofs RefineRunProofs RefineProps BoxModel BoxProofs.
Import ListNotations.
Open Scope R_scope.

(** The number [y] is in the interval of the box. *)
Definition encloses (b : box) (y : R) : Prop := IZR (val_do b) * powerRZ 2 (- k_do b) <= y <= IZR (val_up b) * powerRZ 2 (- k_up b).
(** The point of the parametrisation above the root [x]: -v_i(x)/(c_i w(x)), and [x] itself. *)
Definition solution (p : param) (x : R) : list R := map (fun vc => - zeval (fst vc) x / (IZR (snd vc) * zeval (denom p) x)) (coords p) ++ [x].
(** Shape of a parametrisation: numerators of degree less than that of the eliminating polynomial and at most one more
    than that of the denominator (for the derivative of the eliminating polynomial, this is the same), positive
    coefficients. *)
Definition shape_ok (p : param) : Prop :=
  lead_ok (elim p) /\ (2 <= length (elim p))%nat /\ denom p <> [] /\
  forall vc, In vc (coords p) -> fst vc <> [] /\ (0 < snd vc)%Z /\ (length (fst vc) < length (elim p))%nat /\ (length (fst vc) <= length (denom p) + 1)%nat.
(** [r] is the only root in the open interval (n/2^k, (n+1)/2^k), and the values at the two ends have opposite signs. *)
Definition isolated (u : list Z) (n k : Z) (r : R) : Prop :=
  let lo := IZR n * powerRZ 2 (- k) in let hi := IZR (n + 1) * powerRZ 2 (- k) in
  zeval u lo * zeval u hi < 0 /\ forall y, lo < y < hi -> zeval u y = 0 -> y = r.
Definition no_box := {| val_do := 0; k_do := 0; val_up := 0; k_up := 0; bexact := true |}.
(** The interval of the last coordinate is exact, or the evaluation of the denominator on it never has partial bounds of
    opposite signs ([steady], the condition of C33). *)
Definition well_evaluated (p : param) (l : list box) : Prop :=
  let b := last l no_box in bexact b = true \/ steady (denom p) (k_do b) (val_do b) (val_up b).

Lemma shape_facts p : shape_ok p -> lead_ok (elim p) /\ (1 <= nsols p)%Z /\ param_ok p /\ (forall vc, In vc (coords p) -> snd vc <> 0%Z /\ (length (fst vc) <= Z.to_nat (nsols p))%nat /\ (length (fst vc) <= length (denom p) + 1)%nat).
Proof.
  intros (H1 & H2 & H3 & H4). split; [assumption|]. assert (N : (1 <= nsols p)%Z) by (unfold nsols; lia). split; [assumption|]. split.
  - split; [assumption|]. intros vc Hi. destruct (H4 vc Hi) as (A & B & _). auto.
  - intros vc Hi. destruct (H4 vc Hi) as (A & B & C & D). split; [lia|]. split; [unfold nsols; lia|assumption].
Qed.
Lemma isolated_bracket u n k r : (0 < k)%Z -> isolated u n k r -> let rt := {| numer := n; ik := k; isexact := false |} in bracket u rt /\ only_root u rt r.
Proof.
  intros Hk [H U]. cbv zeta. unfold bracket, only_root. rewrite lo_pos, hi_pos by assumption. unfold dyadic. cbn [numer ik isexact]. auto.
Qed.

(** ** C34 *)
(** Exact roots: for every dyadic root with a nonzero denominator the boxes are computed and contain the solution. *)
Theorem C34_exact p n k prec f1 f2 : shape_ok p -> (0 <= k)%Z -> (0 <= prec)%Z -> let r := IZR n * powerRZ 2 (- k) in zeval (denom p) r <> 0 ->
  exists l, lazy_root f1 f2 p {| numer := n; ik := k; isexact := true |} prec = Some l /\ Forall2 encloses l (solution p r).
Proof.
  intros Hs Hk Hp r Nd. destruct (shape_facts p Hs) as (H1 & H2 & H3 & H4). unfold lazy_root. cbn [isexact ik]. set (rt := {| numer := n; ik := k; isexact := true |}).
  destruct (single_exact_total p rt (Z.max k prec)) as (l & E); [apply H3|exact Hk|cbn [rt ik]; lia|exact Nd|intros vc Hi; specialize (H4 vc Hi); tauto|]. exists l. split; [exact E|]. exact (single_exact_ok p rt _ l H3 Hk E).
Qed.
Print Assumptions C34_exact.
(** Isolating intervals: the computation ends, with a result, whenever the denominator does not vanish at the root. *)
Theorem C34_total p n k prec r : shape_ok p -> (0 < k)%Z -> (0 <= prec)%Z -> isolated (elim p) n k r -> zeval (denom p) r <> 0 ->
  exists N, forall f1 f2, (N <= f1)%nat -> (N <= f2)%nat -> exists l, lazy_root f1 f2 p {| numer := n; ik := k; isexact := false |} prec = Some l.
Proof.
  intros Hs Hk Hp Hi Nd. destruct (shape_facts p Hs) as (H1 & H2 & H3 & H4). destruct (isolated_bracket _ _ _ _ Hk Hi) as [B U]. apply (lazy_root_total p _ prec r); try assumption. apply H3.
Qed.
Print Assumptions C34_total.
(** The boxes contain the solution. *)
Theorem C34_sound p n k prec r f1 f2 l : shape_ok p -> (0 < k)%Z -> (0 <= prec)%Z -> isolated (elim p) n k r ->
  lazy_root f1 f2 p {| numer := n; ik := k; isexact := false |} prec = Some l -> well_evaluated p l -> Forall2 encloses l (solution p r).
Proof.
  intros Hs Hk Hp Hi E W. destruct (shape_facts p Hs) as (H1 & H2 & H3 & H4). destruct (isolated_bracket _ _ _ _ Hk Hi) as [B U].
  apply (lazy_root_sound f1 f2 p _ prec r l H1 H3 H2 Hp ltac:(intros vc Hv; apply (H4 vc Hv)) B U E). intros b <-. exact W.
Qed.
Print Assumptions C34_sound.

(** Isolation, refinement and boxes together. For every parametrisation whose eliminating polynomial has simple roots, none of
    them at the end of one of the intervals found and none of them a zero of the denominator, and every positive precision:
    the boxes are computed, one list per root in increasing order, and every real solution is in the boxes of its own root
    (if the denominator is well evaluated there). *)
Theorem C34_solutions p prec fuel ivs : shape_ok p -> simple_roots (elim p) -> (0 < prec)%Z -> real_roots fuel (elim p) prec = Some ivs ->
  (forall r, zeval (elim p) r = 0 -> zeval (denom p) r <> 0) ->
  (forall i, In i ivs -> isexact i = false -> zeval (elim p) (IZR (numer i) * powerRZ 2 (- ik i)) <> 0 /\ zeval (elim p) (IZR (numer i + 1) * powerRZ 2 (- ik i)) <> 0) ->
  exists N raw pts, (forall f1 f2, (N <= f1)%nat -> (N <= f2)%nat -> opt_map (fun rt => lazy_root f1 f2 p rt prec) ivs = Some raw /\ extract_roots f1 f2 p ivs prec = Some pts) /\
    Forall2 (Forall2 same_box) raw pts /\
    exists rs, (forall r, zeval (elim p) r = 0 <-> In r rs) /\ ForallOrdPairs Rlt rs /\
      Forall2 (fun r pt => let '(boxes, written) := pt in well_evaluated p boxes -> Forall2 encloses written (solution p r)) rs (combine raw pts).
Proof.
  intros Hs HS Hp Er Hd He. destruct (shape_facts p Hs) as (H1 & H2 & H3 & H4).
  destruct (C32_refine (elim p) prec H1 HS ltac:(lia)) as (l & out & f0 & F & Iso & Q).
  assert (out = ivs). { pose proof (real_roots_mono fuel (Nat.max fuel f0) _ _ _ (Nat.le_max_l _ _) Er) as K1. pose proof (proj2 (F (Nat.max fuel f0) (Nat.le_max_r _ _))) as K2. congruence. }
  subst out. clear F Er.
  assert (Qi : forall i, In i ivs -> (isexact i = true /\ (0 <= ik i)%Z) \/ (isexact i = false /\ (0 < ik i)%Z)).
  { clear - Q Hp. induction Q as [|a i l out (_ & _ & H) Q IH]; intros j Hj; [destruct Hj|]. destruct Hj as [<-|Hj]; [|auto]. destruct H as [H|(H & K & _)]; [left; exact H|right; split; [assumption|lia]]. }
  clear Q. destruct Iso as (Io & Iu & Ic).
  assert (G : forall i, In i ivs -> exists r N lb, set_of i r /\ zeval (elim p) r = 0 /\ (forall f1 f2, (N <= f1)%nat -> (N <= f2)%nat -> lazy_root f1 f2 p i prec = Some lb) /\ Forall k_ok lb /\ (well_evaluated p lb -> Forall2 in_box lb (point p r)) /\ forall y, set_of i y -> zeval (elim p) y = 0 -> y = r).
  { intros i Hi. rewrite Forall_map, Forall_forall in Iu. destruct (Iu i Hi) as (r & S & Z & U). specialize (Hd r Z). specialize (He i Hi). destruct (Qi i Hi) as [[X K]|[X K]].
    - assert (Er : r = dyadic i) by (unfold set_of, in_record in S; rewrite X in S; exact S). 
      destruct (single_exact_total p i (Z.max (ik i) prec)) as (lb & E); [apply H3|exact K|lia|rewrite <- Er; exact Hd|intros vc Hv; specialize (H4 vc Hv); tauto|].
      exists r, 0%nat, lb. split; [assumption|]. split; [assumption|]. assert (El : forall f1 f2, lazy_root f1 f2 p i prec = Some lb) by (intros f1 f2; unfold lazy_root; rewrite X; exact E).
      split; [auto|]. split; [apply (lazy_root_k 0 0 p i prec r); auto; lia|]. split; [|assumption]. intros _. rewrite Er. exact (single_exact_ok p i _ lb H3 K E).
    - destruct (He X) as [E1 E2]. assert (Sr : record_lo i < r < record_hi i) by (apply (record_set_open i r X); exact S).
      assert (Uo : only_root (elim p) i r) by (intros y Hy Zy; apply U; [apply (record_set_open i y X); exact Hy|exact Zy]).
      assert (B : bracket (elim p) i). { split; [assumption|]. split; [assumption|]. apply (sign_change (map IZR (elim p)) _ _ r); [apply simple_simpleR; assumption|rewrite map_length; destruct Hs as (_ & Hs & _); lia|assumption|exact Z| | |].
        - intros y Hy Zy. apply Uo; assumption. - rewrite lo_pos by assumption. exact E1. - rewrite hi_pos by assumption. exact E2. }
      destruct (lazy_root_total p i prec r H1 (proj1 H3) Hd H2 ltac:(lia) H4 B Uo) as (N & HN). destruct (HN N N (le_n _) (le_n _)) as (lb & E).
      exists r, N, lb. split; [assumption|]. split; [assumption|]. split; [intros f1 f2 L1 L2; exact (lazy_root_mono _ _ _ _ _ _ _ _ L1 L2 E)|].
      split; [apply (lazy_root_k N N p i prec r); auto; lia|]. split; [|assumption]. intros W.
      apply (lazy_root_sound N N p i prec r lb H1 H3 H2 ltac:(lia) ltac:(intros vc Hv; apply (H4 vc Hv)) B Uo E). intros b <-. exact W. }
  assert (GG : exists N raw pts rs, (forall f1 f2, (N <= f1)%nat -> (N <= f2)%nat -> opt_map (fun rt => lazy_root f1 f2 p rt prec) ivs = Some raw) /\
    opt_map (opt_map normalize_box) raw = Some pts /\ Forall2 (Forall2 same_box) raw pts /\
    Forall2 (fun i r => set_of i r /\ zeval (elim p) r = 0 /\ forall y, set_of i y -> zeval (elim p) y = 0 -> y = r) ivs rs /\
    Forall2 (fun r pt => let '(boxes, written) := pt in well_evaluated p boxes -> Forall2 encloses written (solution p r)) rs (combine raw pts)).
  { clear - G. induction ivs as [|i ivs IH].
    - exists 0%nat, [], [], []. cbn [opt_map combine]. repeat split; constructor.
    - destruct IH as (N & raw & pts & rs & A1 & A2 & A3 & A4 & A5); [intros j Hj; apply G; right; assumption|]. destruct (G i (or_introl eq_refl)) as (r & N' & lb & S & Z & E & K & W & U).
      destruct (normalize_all lb K) as (lb' & E' & S'). exists (Nat.max N N'), (lb :: raw), (lb' :: pts), (r :: rs). cbn [opt_map combine]. split; [|split; [|split; [|split]]].
      + intros f1 f2 L1 L2. rewrite E by lia. cbn [obind]. rewrite A1 by lia. reflexivity.
      + rewrite E'. cbn [obind]. rewrite A2. reflexivity.
      + constructor; assumption.
      + constructor; auto.
      + constructor; [|assumption]. intros Wb. exact (same_in_boxes _ _ _ S' (W Wb)). }
  destruct GG as (N & raw & pts & rs & A1 & A2 & A3 & A4 & A5). exists N, raw, pts. split.
  { intros f1 f2 L1 L2. specialize (A1 f1 f2 L1 L2). split; [assumption|]. unfold extract_roots. rewrite A1. exact A2. }
  split; [assumption|]. exists rs. split; [|split; [|assumption]].
  - intros r. split; intros Hr.
    + destruct (Ic r Hr) as (A & Ha & Hx). apply in_map_iff in Ha. destruct Ha as (i & <- & Hi). clear - A4 Hi Hx Hr. induction A4 as [|j s l rs (S1 & S2 & S3) A4 IH]; [destruct Hi|]. destruct Hi as [->|Hi]; [left; symmetry; apply S3; assumption|right; auto].
    + clear - A4 Hr. induction A4 as [|j s l rs (S1 & S2 & S3) A4 IH]; [destruct Hr|]. destruct Hr as [<-|Hr]; auto.
  - clear - A4 Io. induction A4 as [|j s l rs (S1 & S2 & S3) A4 IH]; [constructor|]. cbn [map] in Io. inversion_clear Io as [|? ? F O]. constructor; [|auto].
    clear - F A4 S1. induction A4 as [|j' s' l rs (T1 & T2 & T3) A4 IH]; [constructor|]. cbn [map] in F. inversion_clear F as [|? ? F1 F2]. constructor; [apply F1; assumption|auto].
Qed.
Print Assumptions C34_solutions.

(** x^2 - 2, denominator 2x, first coordinate -(3x + 1)/(5 * 2x): interval (5/4, 3/2). *)
Definition ex_param := {| elim := [-2; 0; 1]%Z; denom := [0; 2]%Z; coords := [([1; 3]%Z, 5%Z)] |}.
Example C34_ex : shape_ok ex_param /\ isolated (elim ex_param) 5 2 (sqrt 2) /\ zeval (denom ex_param) (sqrt 2) <> 0 /\
  exists l, lazy_root 5 50 ex_param {| numer := 5; ik := 2; isexact := false |} 10 = Some l /\ well_evaluated ex_param l.
Proof.
  assert (S2 : sqrt 2 * sqrt 2 = 2) by (apply sqrt_sqrt; lra). assert (S0 : 0 < sqrt 2) by (apply sqrt_lt_R0; lra).
  split; [|split; [|split]].
  - split; [split; [discriminate|cbn; lia]|]. split; [cbn; lia|]. split; [discriminate|]. intros vc [<-|[]]. cbn [fst snd length ex_param elim denom]. split; [discriminate|]. lia.
  - unfold isolated, zeval. cbn [ex_param elim map peval]. replace (powerRZ 2 (- (2))) with (/ 4) by (change (powerRZ 2 (- (2))) with (/ (2 * (2 * 1))); lra). change (5 + 1)%Z with 6%Z. split; [lra|]. intros y Hy Z.
    assert (Hm : (y - sqrt 2) * (y + sqrt 2) = 0) by lra. apply Rmult_integral in Hm. lra.
  - unfold zeval. cbn [ex_param denom map peval]. lra.
  - eexists. split; [vm_compute; reflexivity|]. right. cbn. lia.
Qed.

(** ** Where the full statement fails *)
(** 3x^3 + x^2 + 7x + 1 with its derivative as denominator, and the isolating interval (-1/4, 0): the partial bounds of the
    derivative straddle zero, its enclosure [7, 7.06] does not contain its value at the root (less than 6.95), and the box
    written for the coordinate -1/w(x) does not contain it. *)
Definition bad_param := {| elim := [1; 7; 1; 3]%Z; denom := [7; 2; 9]%Z; coords := [([1]%Z, 1%Z)] |}.
Theorem C34_enclosure_refuted : exists r l, shape_ok bad_param /\ denom bad_param = pder (elim bad_param) /\ isolated (elim bad_param) (-1) 2 r /\ zeval (elim bad_param) r = 0 /\
  lazy_root 5 50 bad_param {| numer := -1; ik := 2; isexact := false |} 20 = Some l /\ ~ Forall2 encloses l (solution bad_param r).
Proof.
  assert (P : powerRZ 2 (- (2)) = / 4) by (change (powerRZ 2 (- (2))) with (/ (2 * (2 * 1))); lra).
  destruct (ivtR (map IZR [1; 7; 1; 3]%Z) (-0.16) (-0.13)) as (r & Hr & Zr); [lra|cbn [map peval]; lra|]. cbn [map peval] in Zr.
  eexists r, _. split; [|split; [reflexivity|split; [|split; [|split; [vm_compute; reflexivity|]]]]].
  - split; [split; [discriminate|cbn; lia]|]. split; [cbn; lia|]. split; [discriminate|]. intros vc [<-|[]]. cbn [fst snd length bad_param elim denom]. split; [discriminate|]. lia.
  - unfold isolated, zeval. cbn [bad_param elim map peval]. rewrite P. change (-1 + 1)%Z with 0%Z. split; [lra|]. intros y Hy Z.
    assert (Hm : (y - r) * (3 * (y * y + y * r + r * r) + (y + r) + 7) = 0) by lra. apply Rmult_integral in Hm. destruct Hm as [Hm|Hm]; [lra|]. exfalso.
    assert (0 <= y * y) by apply Rle_0_sqr. assert (0 <= r * r) by apply Rle_0_sqr. assert (0 <= (y + r) * (y + r)) by apply Rle_0_sqr. lra.
  - unfold zeval. cbn [bad_param elim map peval]. lra.
  - intros H. unfold solution in H. cbn [bad_param coords map app] in H. inversion_clear H as [|? ? ? ? E _]. unfold encloses in E. cbn [val_do k_do fst snd] in E. destruct E as [E _].
    unfold zeval in E. cbn [bad_param denom map peval] in E. change (powerRZ 2 (- (23))) with (/ (2 ^ 23)) in E. set (w := 7 + r * (2 + r * (9 + r * 0))) in *.
    assert (Hw : 6 < w < 6.95). { unfold w. assert (0 <= (r + 0.16) * (- 0.13 - r)) by (apply Rmult_le_pos; lra). assert (0 <= r * r) by apply Rle_0_sqr. lra. }
    assert (C : - (1 + r * 0) / (1 * w) < - 0.143). { replace (- (1 + r * 0) / (1 * w)) with (- / w) by (field; lra). assert (/ 6.95 < / w) by (apply Rinv_lt_contravar; [apply Rmult_lt_0_compat; lra|lra]). lra. }
    replace (2 ^ 23) with 8388608 in E by lra. lra.
Qed.
Print Assumptions C34_enclosure_refuted.
(** A real solution is lost: the two roots 1 and 1 + 1/(3 2^200) at precision 128. The interval of the second one has the
    first one as its left end; refining it returns this end. Both lists of boxes are the point (1, 1). *)
Definition close_elim : list Z := [3 * 2 ^ 200 + 1; - (3 * 2 ^ 201 + 1); 3 * 2 ^ 200]%Z.
Definition close_param := {| elim := close_elim; denom := [- (3 * 2 ^ 201 + 1); 3 * 2 ^ 201]%Z; coords := [([1]%Z, 1%Z)] |}.
Theorem C34_lost_solution : let r := 1 + / (3 * 2 ^ 200) in let one := {| val_do := 1; k_do := 0; val_up := 1; k_up := 0; bexact := true |} in
  shape_ok close_param /\ denom close_param = pder close_elim /\ simple_roots close_elim /\ zeval close_elim r = 0 /\ r <> 1 /\
  (let? ivs := real_roots 400 close_elim 128 in extract_roots 50 400 close_param ivs 128) = Some [[one; one]; [one; one]] /\ ~ Forall2 encloses [one; one] (solution close_param r).
Proof.
  assert (P : 0 < 2 ^ 200) by (apply pow_lt; lra). set (r := 1 + / (3 * 2 ^ 200)). cbv zeta. assert (Hr : 0 < / (3 * 2 ^ 200)) by (apply Rinv_0_lt_compat; lra).
  assert (I1 : IZR (3 * 2 ^ 200) = 3 * 2 ^ 200) by (rewrite mult_IZR; f_equal; change 200%Z with (Z.of_nat 200); rewrite <- pow_IZR; reflexivity).
  assert (I2 : IZR (3 * 2 ^ 201) = 2 * (3 * 2 ^ 200)) by (rewrite <- I1, <- mult_IZR; f_equal).
  assert (Ev : forall x, zeval close_elim x = (x - 1) * (3 * 2 ^ 200 * (x - 1) - 1)). { intros x. unfold zeval, close_elim. cbn [map peval]. rewrite opp_IZR, !plus_IZR, I2, I1. ring. }
  split; [|split; [vm_compute; reflexivity|split; [|split; [|split; [|split; [vm_compute; reflexivity|]]]]]].
  - split; [split; [discriminate|unfold close_param, close_elim; cbn [elim last]; lia]|]. split; [cbn; lia|]. split; [discriminate|]. intros vc [<-|[]]. cbn [fst snd length close_param elim denom]. split; [discriminate|]. cbn [close_elim length]. lia.
  - intros x Zx. unfold root in Zx. rewrite Ev in Zx. replace (pder close_elim) with [- (3 * 2 ^ 201 + 1); 3 * 2 ^ 201]%Z by (vm_compute; reflexivity). unfold zeval. cbn [map peval]. rewrite opp_IZR, plus_IZR, I2.
    intros N. apply Rmult_integral in Zx. destruct Zx as [Zx|Zx]; [assert (x = 1) by lra; subst x; lra|]. lra.
  - rewrite Ev. unfold r. field.
  - unfold r. lra.
  - intros H. unfold solution in H. cbn [close_param coords map app] in H. inversion_clear H as [|? ? ? ? _ K]. inversion_clear K as [|? ? ? ? E _]. unfold encloses in E. cbn [val_up k_up] in E. change (powerRZ 2 (- 0)) with 1 in E. unfold r in E. lra.
Qed.
Print Assumptions C34_lost_solution.
(** An interval of width one that does not determine the sign of the denominator (exponent 0, as after a refinement to
    precision 0): the refinement to precision 2*0 does nothing and the loop never ends. *)
Theorem C34_no_progress : let p := {| elim := [-2; 0; 1]%Z; denom := [-3; 2]%Z; coords := [] |} in isolated (elim p) 1 0 (sqrt 2) /\ zeval (denom p) (sqrt 2) <> 0 /\
  forall f1 f2 prec, lazy_root f1 f2 p {| numer := 1; ik := 0; isexact := false |} prec = None.
Proof.
  cbv zeta. assert (S2 : sqrt 2 * sqrt 2 = 2) by (apply sqrt_sqrt; lra). assert (S0 : 0 < sqrt 2) by (apply sqrt_lt_R0; lra). split; [|split].
  - unfold isolated, zeval. cbn [elim map peval]. change (powerRZ 2 (- 0)) with 1. change (1 + 1)%Z with 2%Z. split; [lra|]. intros y Hy Z. assert (Hm : (y - sqrt 2) * (y + sqrt 2) = 0) by lra. apply Rmult_integral in Hm. lra.
  - unfold zeval. cbn [denom map peval]. intros N. assert (E : sqrt 2 = 3 / 2) by lra. rewrite E in S2. lra.
  - intros f1 f2 prec. unfold lazy_root. cbn [isexact]. set (p := {| elim := _; denom := _; coords := _ |}). generalize (2 * (nsols p + ik {| numer := 1; ik := 0; isexact := false |}))%Z as corr.
    assert (G : forall corr, lazy_loop f1 f2 p {| numer := 1; ik := 0; isexact := false |} corr = None); [|intros corr; rewrite G; reflexivity].
    induction f1 as [|f1 IH]; intros corr; cbn [lazy_loop isexact]; [reflexivity|]. unfold newvalue_denom. cbn [p denom numer ik]. change (eval_interval [-3; 2]%Z 0 1 (1 + 1)) with (Some (-1, 1, true)%Z). cbn [obind Z.ltb Z.compare orb negb].
    destruct f2 as [|f2]; [reflexivity|]. change (lazy_refine (S f2) p {| numer := 1; ik := 0; isexact := false |}) with (Some {| numer := 1; ik := 0; isexact := false |}). cbn [obind isexact]. apply IH.
Qed.
Print Assumptions C34_no_progress.
(** A negative coefficient c_i exchanges the two bounds. *)
Example C34_negative_coefficient : let p := {| elim := [-2; 0; 1]%Z; denom := [0; 2]%Z; coords := [([1]%Z, (-1)%Z)] |} in
  option_map (map (fun b => (val_do b, val_up b))) (lazy_root 5 50 p {| numer := 5; ik := 2; isexact := false |} 4) = Some [(25, 22); (5, 6)]%Z.
Proof. vm_compute. reflexivity. Qed.

(** ** C35 *)
(** Normalisation never fails on boxes with nonnegative exponents, keeps the two values, and leaves zero, an odd numerator or
    the exponent 0. *)
Theorem C35_normalize b : (0 <= k_do b)%Z -> (0 <= k_up b)%Z -> exists b', normalize_box b = Some b' /\ (forall y, encloses b' y <-> encloses b y) /\
  IZR (val_do b') * powerRZ 2 (- k_do b') = IZR (val_do b) * powerRZ 2 (- k_do b) /\ IZR (val_up b') * powerRZ 2 (- k_up b') = IZR (val_up b) * powerRZ 2 (- k_up b) /\
  (0 <= k_do b')%Z /\ (0 <= k_up b')%Z /\ (val_do b' = 0%Z \/ k_do b' = 0%Z \/ Z.odd (val_do b') = true) /\ (val_up b' = 0%Z \/ k_up b' = 0%Z \/ Z.odd (val_up b') = true).
Proof.
  intros H1 H2. destruct (normalize_box_ok b H1 H2) as (b' & E & S). exists b'. split; [assumption|]. split; [intros y; symmetry; apply same_in_box; assumption|].
  destruct S as (S1 & S2 & S3 & S4 & S5 & S6 & S7). split; [exact S1|]. split; [exact S2|]. split; [lia|]. split; [lia|]. split; [exact S6|exact S7].
Qed.
Print Assumptions C35_normalize.
(** A negative exponent (an interval wider than 1) is an error (division by a power of two with a negative exponent in the C
    code: mpz_tdiv_q_2exp takes an unsigned count). *)
Example C35_ex : normalize_box {| val_do := -12; k_do := 5; val_up := 8; k_up := 2; bexact := false |} = Some {| val_do := -3; k_do := 3; val_up := 2; k_up := 0; bexact := false |} /\
  normalize_box {| val_do := 0; k_do := 5; val_up := 8; k_up := 2; bexact := false |} = Some {| val_do := 0; k_do := 5; val_up := 2; k_up := 0; bexact := false |} /\
  normalize_box {| val_do := 4; k_do := -1; val_up := 8; k_up := -1; bexact := true |} = None.
Proof. repeat split; vm_compute; reflexivity. Qed.
