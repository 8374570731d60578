(** Proofs about interval refinement: all the intervals of an isolation. *)
From Coq Require Import ZArith List Arith Bool Lia Lra Reals.
From Verif Require Import ModInvModel PolySpec PolyProofs TaylorModel TaylorProofs DescModel IsolSpec IsolModel IsolProofs IsolBisProofs IsolBoundProofs
  IsolSepProofs IsolTermProofs EvalModel EvalProofs RefineModel RefineProofs.
Import ListNotations.
Open Scope R_scope.

(** ** Sign change at the ends of an interval with a single simple root *)
Lemma ivtR P x y : x < y -> peval P x * peval P y < 0 -> exists z, x < z < y /\ peval P z = 0.
Proof.
  intros L H. assert (C : continuity (peval P)) by apply peval_cont.
  assert (G : exists z, x <= z <= y /\ peval P z = 0).
  { destruct (neg_split _ _ H) as [[A B]|[A B]].
    - destruct (IVT (peval P) x y C L A B) as (z & Hz & E). eauto.
    - destruct (IVT (fun t => - peval P t) x y) as (z & Hz & E); [apply continuity_opp; assumption|assumption|lra|lra|].
      exists z. split; [assumption|lra]. }
  destruct G as (z & [G1 G2] & E). exists z. split; [|exact E].
  split; [destruct G1 as [G1|G1]; [assumption|subst z]|destruct G2 as [G2|G2]; [assumption|subst z]]; rewrite E in H; lra.
Qed.
Lemma mul_sign a b : a <> 0 -> b <> 0 -> ~ a * b < 0 -> 0 < a * b.
Proof. intros A B H. destruct (Rtotal_order (a * b) 0) as [|[E|]]; [contradiction| |assumption]. apply Rmult_integral in E. tauto. Qed.
Lemma sgn_trans A x B y : 0 < A * x -> 0 < B * y -> A * B < 0 -> x * y < 0.
Proof.
  intros H1 H2 H3. pose proof (Rmult_lt_0_compat _ _ H1 H2) as K. apply Rnot_le_lt. intros N. replace (A * x * (B * y)) with (- ((- (A * B)) * (x * y))) in K by ring.
  assert (0 <= - (A * B) * (x * y)) by (apply Rmult_le_pos; lra). lra.
Qed.
Lemma sign_change P a b r : simpleR P -> (1 <= length P)%nat -> a < r < b -> peval P r = 0 -> (forall y, a < y < b -> peval P y = 0 -> y = r) ->
  peval P a <> 0 -> peval P b <> 0 -> peval P a * peval P b < 0.
Proof.
  intros HS HL Hr Zr U Na Nb. destruct (factor P r Zr HL) as (Q & LQ & EQ). destruct (simple_quot P Q r LQ EQ HS) as [_ Nr].
  assert (Qa : peval Q a <> 0) by (intros A; apply Na; rewrite EQ, A; ring). assert (Qb : peval Q b <> 0) by (intros A; apply Nb; rewrite EQ, A; ring).
  assert (K : 0 < peval Q a * peval Q b).
  { apply mul_sign; try assumption. intros K. destruct (ivtR Q a b ltac:(lra) K) as (z & Hz & Ez). assert (z = r) by (apply U; [assumption|rewrite EQ, Ez; ring]). subst z. contradiction. }
  rewrite !EQ. replace ((a - r) * peval Q a * ((b - r) * peval Q b)) with (- ((r - a) * (b - r)) * (peval Q a * peval Q b)) by ring.
  apply Ropp_lt_cancel. rewrite Ropp_0, Ropp_mult_distr_l, Ropp_involutive. apply Rmult_lt_0_compat; [apply Rmult_lt_0_compat; lra|assumption].
Qed.

(** ** Current polynomial: the original one divided by the roots already found *)
Definition rel (p : list Z) (rs : list R) (neg : bool) (v : list Z) : Prop :=
  lead_ok v /\ length p = (length rs + length v)%nat /\ exists l, l <> 0 /\ forall x, l * zeval p x = prodr rs x * zeval v (sx neg x).
Lemma rel_start p : lead_ok p -> rel p [] false p.
Proof. intros H. split; [assumption|]. split; [reflexivity|]. exists 1. split; [lra|]. intros x. cbn [prodr sx]. ring. Qed.
Lemma rel_quot p rs neg v r q : rel p rs neg v -> quot_by v r q -> rel p (sx neg r :: rs) neg q.
Proof.
  intros (_ & L & l & Hl & E) (L' & Lq & l' & Hl' & E'). split; [assumption|]. split; [cbn [length]; lia|].
  exists ((if neg then -1 else 1) * (l' * l)). split; [apply Rmult_integral_contrapositive; split; [destruct neg; lra|apply Rmult_integral_contrapositive; tauto]|].
  intros x. cbn [prodr]. rewrite !Rmult_assoc, E. replace (l' * (prodr rs x * zeval v (sx neg x))) with (prodr rs x * (l' * zeval v (sx neg x))) by ring. rewrite E'. destruct neg; cbn [sx]; ring.
Qed.
Lemma sx_invol neg x : sx neg (sx neg x) = x.
Proof. destruct neg; cbn [sx]; ring. Qed.
Lemma rel_neg p rs v neg : rel p rs neg v -> rel p rs (negb neg) (negate_odd false v).
Proof.
  intros (Lv & L & l & Hl & E). split; [apply negate_odd_lead; assumption|]. split; [rewrite negate_odd_length; assumption|]. exists l. split; [assumption|].
  intros x. rewrite E, negate_odd_eval. f_equal. f_equal. destruct neg; cbn [sx negb]; ring.
Qed.
Lemma simple_quots_ne rs : forall P Q, length P = (length rs + length Q)%nat -> (forall y, peval P y = prodr rs y * peval Q y) -> simpleR P ->
  simpleR Q /\ forall r, In r rs -> peval Q r <> 0.
Proof.
  induction rs as [|r rs IH]; intros P Q HL HE HS.
  - split; [|intros r []]. replace Q with P; [assumption|]. apply peval_inj; [assumption|]. intros x. rewrite HE. cbn [prodr]. ring.
  - destruct (IH P (mulx r 0 Q)) as [S1 S2]; [rewrite mulx_length, HL; cbn [length]; lia|intros y; rewrite HE, mulx_eval; cbn [prodr]; ring|assumption|].
    destruct (simple_quot (mulx r 0 Q) Q r) as [S3 S4]; [apply mulx_length|intros y; rewrite mulx_eval; ring|assumption|].
    split; [assumption|]. intros r' [<-|Hr']; [assumption|]. intros N. apply (S2 r' Hr'). rewrite mulx_eval, N. ring.
Qed.
Lemma simpleR_scale l P Q : l <> 0 -> length P = length Q -> (forall y, peval Q y = l * peval P y) -> simpleR P -> simpleR Q.
Proof.
  intros Hl HL HE HS. assert (EQ : Q = map (Rmult l) P).
  { apply peval_inj; [rewrite map_length; congruence|]. intros x. rewrite HE. clear. induction P as [|a P IH]; cbn [map peval]; [ring|]. rewrite <- IH. ring. }
  assert (pd_map : forall n, map (Rmult l) (pd n P) = pd n (map (Rmult l) P)).
  { clear. induction P as [|a P IH]; intros n; cbn [pd map]; [reflexivity|]. rewrite <- IH. f_equal. ring. }
  assert (DM : pderR Q = map (Rmult l) (pderR P)).
  { rewrite EQ. destruct P as [|a P']; [reflexivity|]. unfold pderR. cbn [map]. clear. generalize 1. induction P' as [|a P IH]; intros n; cbn [pd map]; [reflexivity|]. rewrite IH. f_equal. ring. }
  assert (EV : forall m x, peval (map (Rmult l) m) x = l * peval m x) by (clear; induction m as [|a m IH]; intros x; cbn [map peval]; [ring|rewrite IH; ring]).
  intros x Zx N. rewrite DM, EV in N. rewrite HE in Zx. apply Rmult_integral in Zx. apply Rmult_integral in N. destruct Zx as [|Zx]; [contradiction|]. destruct N as [|N]; [contradiction|]. exact (HS x Zx N).
Qed.

(** What the relation says about the roots. *)
Lemma rel_roots p rs neg v : rel p rs neg v -> simple_roots p ->
  simpleR (map IZR v) /\ (forall r, In r rs -> zeval v (sx neg r) <> 0) /\ (forall x, root p x <-> In x rs \/ root v (sx neg x)).
Proof.
  intros Rl HS. assert (G : forall v, rel p rs false v -> simpleR (map IZR v) /\ (forall r, In r rs -> zeval v r <> 0)).
  { clear v Rl. intros v (_ & L & l & Hl & E). destruct (simple_quots_ne rs (map (Rmult l) (map IZR p)) (map IZR v)) as [S1 S2].
    - rewrite !map_length. assumption.
    - intros y. transitivity (l * zeval p y); [|apply E]. unfold zeval. generalize (map IZR p). clear. induction l0 as [|a m IH]; cbn [map peval]; [ring|rewrite IH; ring].
    - apply (simpleR_scale l (map IZR p)); [assumption|rewrite !map_length; reflexivity| |apply simple_simpleR; assumption].
      intros y. generalize (map IZR p). clear. induction l0 as [|a m IH]; cbn [map peval]; [ring|rewrite IH; ring].
    - auto. }
  assert (Rt : forall x, root p x <-> In x rs \/ root v (sx neg x)).
  { destruct Rl as (_ & _ & l & Hl & E). intros x. specialize (E x). unfold root. split.
    - intros Zx. rewrite Zx, Rmult_0_r in E. symmetry in E. apply Rmult_integral in E. destruct E as [E|E]; [left|right; assumption].
      destruct (in_dec Req_EM_T x rs) as [|N]; [assumption|exfalso]. revert E. apply prodr_nz. intros r Hr ->. contradiction.
    - intros H. assert (l * zeval p x = 0) by (rewrite E; destruct H as [H|H]; [rewrite prodr_zero by assumption; ring|rewrite H; ring]). apply Rmult_integral in H0. destruct H0; [contradiction|assumption]. }
  destruct neg.
  - pose proof (rel_neg _ _ _ _ Rl) as Rn. cbn [negb] in Rn. destruct (G _ Rn) as [G1 G2]. split; [|split; [|assumption]].
    + apply simple_simpleR. apply (simple_inv (map IZR (negate_odd false v)) 0 (-1)); [lra| |assumption].
      split; [rewrite map_length, negate_odd_length; reflexivity|]. split; [apply Rl|]. exists 1. split; [lra|]. intros x. rewrite Rmult_1_l. fold (zeval (negate_odd false v) (0 + -1 * x)). rewrite negate_odd_eval. f_equal. ring.
    + intros r Hr. specialize (G2 r Hr). rewrite negate_odd_eval in G2. exact G2.
  - destruct (G _ Rl) as [G1 G2]. split; [assumption|]. split; [exact G2|assumption].
Qed.
Lemma rel_len2 p rs neg v x : rel p rs neg v -> root v x -> (2 <= length v)%nat.
Proof.
  intros ([H1 H2] & _) Hr. destruct v as [|a [|b v]]; [contradiction| |cbn; lia]. exfalso. apply H2. cbn. unfold root in Hr. rewrite zeval_cons, zeval_nil in Hr. apply eq_IZR. lra.
Qed.

(** ** One record *)
(** A record still to be refined: one root of [p] inside, no removed root inside, and a root of [p] at an end is a removed
    one. *)
Definition pending (p : list Z) (rs : list R) (i : interval) : Prop :=
  isexact i = false /\ (exists x, record_set i x /\ root p x /\ forall y, record_set i y -> root p y -> y = x) /\
  (forall r, In r rs -> ~ record_set i r) /\ (forall z, z = record_lo i \/ z = record_hi i -> root p z -> In z rs).
(** Outcome for one record. *)
Definition refined (p : list Z) (prec : Z) (i j : interval) : Prop :=
  (forall x, record_set j x -> record_set i x) /\ (exists x, record_set j x /\ root p x) /\ (isexact j = true /\ (0 <= ik j)%Z \/ isexact j = false /\ (prec <= ik j)%Z).

(** Ends and set of the mirror image. *)
Definition flip (neg : bool) (i : interval) : interval := if neg then mirror i else i.
Lemma flip_ends neg i : isexact i = false -> isexact (flip neg i) = false /\
  (if neg then record_lo (flip neg i) = - record_hi i /\ record_hi (flip neg i) = - record_lo i
   else record_lo (flip neg i) = record_lo i /\ record_hi (flip neg i) = record_hi i).
Proof.
  intros E. destruct neg; cbn [flip]; [|auto]. split; [exact E|]. rewrite !record_hi_eq, !record_lo_eq. unfold mirror. cbn [numer ik]. destruct (Z.ltb_spec 0 (ik i)) as [K|K].
  - rewrite Z.max_r by lia. rewrite opp_IZR, plus_IZR. split; ring.
  - rewrite Z.max_l by lia. change (- 0)%Z with 0%Z. rewrite p2_0, opp_IZR, plus_IZR, pow2_IZR by lia. split; ring.
Qed.
Lemma flip_set neg i x : isexact i = false -> (record_set (flip neg i) (sx neg x) <-> record_set i x).
Proof.
  intros E. destruct (flip_ends neg i E) as [E' H]. rewrite !record_set_open by assumption. destruct neg; cbn [sx]; destruct H as [-> ->]; split; intros; lra.
Qed.

Lemma refine_one p rs neg v i prec : simple_roots p -> rel p rs neg v -> pending p rs i -> (0 <= prec)%Z ->
  exists v' j rs', (forall r, In r rs' -> record_set i r) /\ rel p (rs' ++ rs) neg v' /\ refined p prec i (if neg then mirror_back (clear_k j) else clear_k j) /\
    exists f0, forall fuel, (f0 <= fuel)%nat -> exists s, refine_pos_root fuel v (flip neg i) prec = Some s /\ rpol s = v' /\ rint s = j.
Proof.
  intros HS Rl (Ex & (r & Ir & Zr & Ur) & Nin & Ends) Hp. destruct (rel_roots _ _ _ _ Rl HS) as (Sv & Nv & Rv).
  destruct (flip_ends neg i Ex) as [Exf Hf]. set (a := record_lo (flip neg i)) in *. set (b := record_hi (flip neg i)) in *.
  assert (Ia : forall x, record_set i x <-> a < sx neg x < b).
  { intros x. rewrite <- (flip_set neg i x Ex). apply record_set_open. assumption. }
  assert (Ne : forall z, (z = a \/ z = b) -> zeval v z <> 0).
  { intros z Hz N. assert (Q : sx neg z = record_lo i \/ sx neg z = record_hi i).
    { destruct neg; cbn [sx]; destruct Hf as [F1 F2]; destruct Hz as [->| ->]; rewrite ?F1, ?F2; [right|left|left|right]; ring. }
    assert (In (sx neg z) rs) by (apply Ends; [assumption|]; apply Rv; right; rewrite sx_invol; exact N). apply (Nv _ H). rewrite sx_invol. exact N. }
  assert (Zv : root v (sx neg r)). { apply Rv in Zr. destruct Zr as [Zr|Zr]; [exfalso; exact (Nin _ Zr Ir)|exact Zr]. }
  assert (Sc : zeval v a * zeval v b < 0).
  { apply (sign_change (map IZR v) a b (sx neg r)).
    - assumption.
    - rewrite map_length. pose proof (rel_len2 _ _ _ _ _ Rl Zv). lia.
    - apply Ia. assumption.
    - exact Zv.
    - intros y Hy Zy. rewrite <- (sx_invol neg y). f_equal. apply Ur; [apply Ia; rewrite sx_invol; assumption|]. apply Rv. right. rewrite sx_invol. exact Zy.
    - apply Ne. left; reflexivity.
    - apply Ne. right; reflexivity. }
  destruct (refine_pos_ok v (flip neg i) prec (proj1 Rl) Exf Sc) as (s0 & s & E0 & E1 & R & f0 & F).
  unfold sub_of, exact_of in R. rewrite E0, E1 in R. fold a b in R.
  destruct R as [[(R1 & (R2 & R3 & R4 & R5) & R6 & R7 & _) Rk]|(x & X1 & X2 & X3 & X4 & X5 & X6 & _)].
  - exists (rpol s), (rint s), []. split; [intros q []|]. split; [rewrite R1; exact Rl|]. split; [|exists f0; intros fuel Hf'; exists s; auto].
    set (j := if neg then mirror_back (clear_k (rint s)) else clear_k (rint s)).
    assert (Ck : clear_k (rint s) = rint s) by (unfold clear_k; rewrite R2; reflexivity).
    assert (Jx : isexact j = false) by (unfold j; rewrite Ck; unfold mirror_back; rewrite R2; destruct neg; [reflexivity|assumption]).
    assert (Jk : ik j = ik (rint s)) by (unfold j; rewrite Ck; unfold mirror_back; rewrite R2; destruct neg; reflexivity).
    assert (Js : forall y, record_set j y <-> record_lo (rint s) < sx neg y < record_hi (rint s)).
    { intros y. rewrite record_set_open by assumption. unfold j. rewrite Ck. destruct neg; cbn [sx]; [|tauto]. unfold mirror_back. rewrite R2.
      rewrite !record_hi_eq, !record_lo_eq. cbn [numer ik]. rewrite Z.max_r by lia. rewrite opp_IZR, plus_IZR. split; intros; lra. }
    assert (Pr : zeval v (record_lo (rint s)) * zeval v (record_hi (rint s)) < 0).
    { rewrite R1 in *. apply (sgn_trans (IZR (rva s)) _ (IZR (rvb s))); [assumption|assumption|]. rewrite <- mult_IZR. apply IZR_lt. assumption. }
    split; [|split; [|right; split; [assumption|lia]]].
    + intros y Hy. apply Js in Hy. apply Ia. lra.
    + destruct (ivt v _ _ (ltac:(rewrite record_hi_eq; pose proof (p2_pos (- ik (rint s))); lra) : record_lo (rint s) < record_hi (rint s)) Pr) as (z & Hz & Ez).
      exists (sx neg z). split; [apply Js; rewrite sx_invol; assumption|]. apply Rv. right. rewrite sx_invol. assumption.
  - assert (Ix : record_set i (sx neg x)) by (apply Ia; rewrite sx_invol; assumption).
    exists (rpol s), (rint s), [sx neg x]. split; [intros q [<-|[]]; exact Ix|]. split; [apply (rel_quot _ _ _ v x); assumption|]. split; [|exists f0; intros fuel Hf'; exists s; auto].
    set (j := if neg then mirror_back (clear_k (rint s)) else clear_k (rint s)).
    assert (Jx : isexact (clear_k (rint s)) = true /\ (0 <= ik (clear_k (rint s)))%Z).
    { unfold clear_k. rewrite X3. cbn [andb]. destruct (Z.ltb_spec (ik (rint s)) 0); cbn [isexact ik]; [split; [reflexivity|lia]|split; assumption]. }
    destruct Jx as [Jx Jk].
    assert (Jj : isexact j = true /\ ik j = ik (clear_k (rint s))) by (unfold j, mirror_back; rewrite Jx; destruct neg; [split; reflexivity|auto]). destruct Jj as [Jj1 Jj2].
    assert (Js : forall y, record_set j y <-> y = sx neg x).
    { intros y. unfold j. destruct neg; cbn [sx]; [|apply X4]. specialize (X4 (- y)). revert X4. unfold record_set, in_record, mirror_back. rewrite Jx. cbn [numer ik isexact]. rewrite opp_IZR. intros [A B]. split; intros K.
      - cut (- y = x); [lra|]. apply A. rewrite K. ring.
      - rewrite <- (Ropp_involutive y), B by lra. ring. }
    split; [|split; [|left; split; [assumption|lia]]].
    + intros y Hy. apply Js in Hy. subst y. assumption.
    + exists (sx neg x). split; [apply Js; reflexivity|]. apply Rv. right. rewrite sx_invol. assumption.
Qed.

(** ** All the records *)
Definition settled (p : list Z) (i : interval) : Prop := isexact i = true /\ (0 <= ik i)%Z /\ exists x, record_set i x /\ root p x.
Lemma settled_refined p prec i : settled p i -> refined p prec i i.
Proof. intros (E & K & X). split; [auto|]. split; [assumption|]. left. auto. Qed.
Lemma clear_k_id i : (isexact i = true -> (0 <= ik i)%Z) -> clear_k i = i.
Proof. intros H. unfold clear_k. destruct (isexact i) eqn:E; [|reflexivity]. cbn [andb]. destruct (Z.ltb_spec (ik i) 0); [specialize (H eq_refl); lia|reflexivity]. Qed.
Lemma refined_mono p a b i j : (a <= b)%Z -> refined p b i j -> refined p a i j.
Proof. intros L (H1 & H2 & [H3|[H3 H4]]); (split; [assumption|]; split; [assumption|]); [left; assumption|right; split; [assumption|lia]]. Qed.
Lemma pending_more p rs rs' i : pending p rs i -> (forall r, In r rs' -> ~ record_set i r) -> pending p (rs' ++ rs) i.
Proof.
  intros (H1 & H2 & H3 & H4) N. split; [assumption|]. split; [assumption|]. split.
  - intros r Hr. apply in_app_or in Hr. destruct Hr; auto.
  - intros z Hz Zz. apply in_or_app. right. apply H4; assumption.
Qed.
Definition rleft (i j : interval) : Prop := left_of (record_set i) (record_set j).
Lemma extra_nonneg u d : (2 <= length u)%nat -> (0 <= extra u d)%Z.
Proof. intros H. unfold extra. apply Z.div_pos; [|lia]. apply Z.mul_nonneg_nonneg; lia. Qed.
Lemma pending_root p rs neg v i : simple_roots p -> rel p rs neg v -> pending p rs i -> (2 <= length v)%nat.
Proof.
  intros HS Rl (_ & (x & X1 & X2 & _) & N & _). destruct (rel_roots _ _ _ _ Rl HS) as (_ & _ & Rv). apply Rv in X2. destruct X2 as [X2|X2]; [exfalso; exact (N _ X2 X1)|].
  exact (rel_len2 _ _ _ _ _ Rl X2).
Qed.

Section Side.
  Variables (p : list Z) (prec : Z) (neg : bool) (step : nat -> list Z -> interval -> option (list Z * interval)).
  Fixpoint go (fuel : nat) (u : list Z) (l : list interval) : option (list Z * list interval) :=
    match l with
    | [] => Some (u, [])
    | rt :: l' => let? r := step fuel u rt in let? t := go fuel (fst r) l' in Some (fst t, snd r :: snd t)
    end.
  Hypothesis step_ok : forall rs v i, rel p rs neg v -> settled p i \/ pending p rs i ->
    exists v' j rs', (forall r, In r rs' -> record_set i r) /\ rel p (rs' ++ rs) neg v' /\ refined p prec i j /\ exists f0, forall fuel, (f0 <= fuel)%nat -> step fuel v i = Some (v', j).
  Lemma go_ok : forall l rs v, rel p rs neg v -> (forall i, In i l -> settled p i \/ pending p rs i) -> ForallOrdPairs rleft l ->
    exists v' out rs', (forall r, In r rs' -> exists i, In i l /\ record_set i r) /\ rel p (rs' ++ rs) neg v' /\ Forall2 (refined p prec) l out /\
      exists f0, forall fuel, (f0 <= fuel)%nat -> go fuel v l = Some (v', out).
  Proof.
    induction l as [|i l IH]; intros rs v Rl HI O.
    - exists v, [], []. split; [intros r []|]. split; [assumption|]. split; [constructor|]. exists 0%nat. reflexivity.
    - inversion_clear O as [|? ? F O']. destruct (step_ok rs v i Rl (HI i (or_introl eq_refl))) as (v1 & j & rs1 & A1 & A2 & A3 & f1 & A4).
      destruct (IH (rs1 ++ rs) v1 A2) as (v2 & out & rs2 & B1 & B2 & B3 & f2 & B4).
      + intros i' Hi'. destruct (HI i' (or_intror Hi')) as [K|K]; [left; assumption|right]. apply pending_more; [assumption|]. intros r Hr Hr'.
        rewrite Forall_forall in F. pose proof (F i' Hi' r r (A1 r Hr) Hr'). lra.
      + assumption.
      + exists v2, (j :: out), (rs2 ++ rs1). split; [|split; [rewrite <- app_assoc; assumption|split; [constructor; assumption|]]].
        * intros r Hr. apply in_app_or in Hr. destruct Hr as [Hr|Hr]; [destruct (B1 r Hr) as (i' & ? & ?); exists i'; split; [right; assumption|assumption]|exists i; split; [left; reflexivity|auto]].
        * exists (Nat.max f1 f2). intros fuel Hf. cbn [go]. rewrite A4 by lia. cbn [obind fst snd]. rewrite B4 by lia. reflexivity.
  Qed.
End Side.

Definition neg_step (prec : Z) (fuel : nat) (u : list Z) (rt : interval) : option (list Z * interval) :=
  if isexact rt then Some (u, clear_k rt)
  else let pos := mirror rt in let d := (1 + sizeb (numer pos) - ik rt)%Z in
       let? s := refine_pos_root fuel u pos (prec + extra u d) in Some (rpol s, mirror_back (clear_k (rint s))).
Definition pos_step (prec : Z) (fuel : nat) (u : list Z) (rt : interval) : option (list Z * interval) :=
  if isexact rt then Some (u, rt)
  else let d := (1 + sizeb (numer rt) - ik rt)%Z in
       let? s := refine_pos_root fuel u rt (prec + extra u (1 + d)) in Some (rpol s, clear_k (rint s)).
Lemma refine_negs_go fuel prec : forall l u, refine_negs fuel u l prec = go (neg_step prec) fuel u l.
Proof. induction l as [|i l IH]; intros u; cbn [refine_negs go]; [reflexivity|]. fold (neg_step prec fuel u i). destruct (neg_step prec fuel u i) as [[u' j]|]; cbn [obind fst snd]; [rewrite IH; reflexivity|reflexivity]. Qed.
Lemma refine_poss_go fuel prec : forall l u, refine_poss fuel u l prec = go (pos_step prec) fuel u l.
Proof. induction l as [|i l IH]; intros u; cbn [refine_poss go]; [reflexivity|]. fold (pos_step prec fuel u i). destruct (pos_step prec fuel u i) as [[u' j]|]; cbn [obind fst snd]; [rewrite IH; reflexivity|reflexivity]. Qed.

Lemma neg_step_ok p prec : simple_roots p -> (0 <= prec)%Z -> forall rs v i, rel p rs true v -> settled p i \/ pending p rs i ->
    exists v' j rs', (forall r, In r rs' -> record_set i r) /\ rel p (rs' ++ rs) true v' /\ refined p prec i j /\ exists f0, forall fuel, (f0 <= fuel)%nat -> neg_step prec fuel v i = Some (v', j).
Proof.
  intros HS Hp rs v i Rl [H|H]; unfold neg_step.
  - exists v, i, []. split; [intros r []|]. split; [assumption|]. split; [apply settled_refined; assumption|]. exists O. intros fuel _. pose proof H as (-> & K & _). rewrite clear_k_id; auto.
  - pose proof (extra_nonneg v (1 + sizeb (numer (mirror i)) - ik i) (pending_root _ _ _ _ _ HS Rl H)) as Ex.
    destruct (refine_one p rs true v i (prec + extra v (1 + sizeb (numer (mirror i)) - ik i)) HS Rl H ltac:(lia)) as (v' & j & rs' & A1 & A2 & A3 & f0 & A4). cbn [flip] in A4.
    exists v', (mirror_back (clear_k j)), rs'. split; [assumption|]. split; [assumption|]. split; [eapply refined_mono; [|eassumption]; lia|]. exists f0. intros fuel Hf. rewrite (proj1 H).
    destruct (A4 fuel Hf) as (s & Es & E1 & E2). cbv zeta. rewrite Es. cbn [obind]. rewrite E1, E2. reflexivity.
Qed.
Lemma pos_step_ok p prec : simple_roots p -> (0 <= prec)%Z -> forall rs v i, rel p rs false v -> settled p i \/ pending p rs i ->
    exists v' j rs', (forall r, In r rs' -> record_set i r) /\ rel p (rs' ++ rs) false v' /\ refined p prec i j /\ exists f0, forall fuel, (f0 <= fuel)%nat -> pos_step prec fuel v i = Some (v', j).
Proof.
  intros HS Hp rs v i Rl [H|H]; unfold pos_step.
  - exists v, i, []. split; [intros r []|]. split; [assumption|]. split; [apply settled_refined; assumption|]. exists O. intros fuel _. pose proof H as (-> & K & _). reflexivity.
  - pose proof (extra_nonneg v (1 + (1 + sizeb (numer i) - ik i)) (pending_root _ _ _ _ _ HS Rl H)) as Ex.
    destruct (refine_one p rs false v i (prec + extra v (1 + (1 + sizeb (numer i) - ik i))) HS Rl H ltac:(lia)) as (v' & j & rs' & A1 & A2 & A3 & f0 & A4). cbn [flip] in A4.
    exists v', (clear_k j), rs'. split; [assumption|]. split; [assumption|]. split; [eapply refined_mono; [|eassumption]; lia|]. exists f0. intros fuel Hf. rewrite (proj1 H).
    destruct (A4 fuel Hf) as (s & Es & E1 & E2). cbv zeta. rewrite Es. cbn [obind]. rewrite E1, E2. reflexivity.
Qed.

(** ** Division by the exact roots *)
Lemma exact_value i x : isexact i = true -> (record_set i x <-> x = IZR (numer i) * p2 (- ik i)).
Proof. intros E. unfold record_set, in_record. rewrite E. tauto. Qed.
Lemma remove_exact_ok p : simple_roots p -> forall l rs u, rel p rs false u -> ForallOrdPairs rleft l -> (forall i, In i l -> isexact i = true -> settled p i) ->
  (forall i r, In i l -> isexact i = true -> In r rs -> ~ record_set i r) ->
  exists u' rs', remove_exact_roots u l = Some u' /\ rel p (rs' ++ rs) false u' /\ forall r, In r rs' <-> exists i, In i l /\ isexact i = true /\ record_set i r.
Proof.
  intros HS. induction l as [|i l IH]; intros rs u Rl O HE HN.
  - exists u, []. split; [reflexivity|]. split; [assumption|]. intros r. split; [intros []|intros (i & [] & _)].
  - inversion_clear O as [|? ? F O']. cbn [remove_exact_roots]. destruct (isexact i) eqn:Ei.
    + destruct (HE i (or_introl eq_refl) Ei) as (_ & Ki & x & X1 & X2). pose proof (proj1 (exact_value i x Ei) X1) as Ex.
      destruct (Z.ltb_spec (ik i) 0); [lia|].
      assert (Zx : root u x). { destruct (rel_roots _ _ _ _ Rl HS) as (_ & _ & Rv). apply Rv in X2. destruct X2 as [X2|X2]; [exfalso; exact (HN i x (or_introl eq_refl) Ei X2 X1)|exact X2]. }
      rewrite Ex in Zx. destruct (quotient_ok u (numer i) (ik i) Ki (proj1 Rl) Zx) as (q & Eq & Hq). rewrite Eq. cbn [obind]. rewrite <- Ex in Hq.
      pose proof (rel_quot _ _ _ _ _ _ Rl Hq) as Rq. cbn [sx] in Rq.
      destruct (IH (x :: rs) q Rq O') as (u' & rs' & A1 & A2 & A3).
      * intros; apply HE; [right; assumption|assumption].
      * intros j r Hj Ej [<-|Hr] Hjr; [|exact (HN j r (or_intror Hj) Ej Hr Hjr)]. rewrite Forall_forall in F. pose proof (F j Hj x x X1 Hjr). lra.
      * exists u', (rs' ++ [x]). split; [assumption|]. split; [rewrite <- app_assoc; exact A2|]. intros r. rewrite in_app_iff, A3. split.
        -- intros [(j & J1 & J2 & J3)|[<-|[]]]; [exists j; split; [right; assumption|auto]|exists i; split; [left; reflexivity|auto]].
        -- intros (j & [<-|Hj] & J2 & J3); [right; left; rewrite (proj1 (exact_value i r Ei) J3), Ex; reflexivity|left; exists j; auto].
    + destruct (IH rs u Rl O') as (u' & rs' & A1 & A2 & A3).
      * intros; apply HE; [right; assumption|assumption].
      * intros; apply HN; [right; assumption|assumption|assumption].
      * exists u', rs'. split; [assumption|]. split; [assumption|]. intros r. rewrite A3. split; intros (j & J1 & J2 & J3).
        -- exists j. split; [right; assumption|auto].
        -- destruct J1 as [<-|J1]; [congruence|exists j; auto].
Qed.

(** ** The whole refinement *)
Lemma FOP_map_inv {A B} (g : A -> B) (R : B -> B -> Prop) l : ForallOrdPairs R (map g l) -> ForallOrdPairs (fun x y => R (g x) (g y)) l.
Proof. induction l as [|a l IH]; intros H; [constructor|]. inversion_clear H as [|? ? F O]. constructor; [|auto]. rewrite Forall_map in F. exact F. Qed.
Lemma FOP_app_inv {A} (R : A -> A -> Prop) a b : ForallOrdPairs R (a ++ b) -> ForallOrdPairs R a /\ ForallOrdPairs R b /\ forall x y, In x a -> In y b -> R x y.
Proof.
  induction a as [|x a IH]; intros H; cbn [app] in H; [split; [constructor|]; split; [assumption|intros x y []]|].
  inversion_clear H as [|? ? F O]. destruct (IH O) as (I1 & I2 & I3). rewrite Forall_app in F. destruct F as [F1 F2]. split; [constructor; assumption|]. split; [assumption|].
  intros x' y [<-|Hx] Hy; [rewrite Forall_forall in F2; auto|auto].
Qed.

Theorem refine_adaptative_ok p neg pos prec : lead_ok p -> simple_roots p -> (0 <= prec)%Z -> isolates (zeval p) (map record_set (neg ++ pos)) -> ends_ok p (neg ++ pos) ->
  (forall i, In i (neg ++ pos) -> isexact i = true -> (0 <= ik i)%Z) ->
  exists out, Forall2 (refined p prec) (neg ++ pos) out /\ exists f0, forall fuel, (f0 <= fuel)%nat -> refine_adaptative fuel p neg pos prec = Some out.
Proof.
  intros Hl HS Hp (I1 & I2 & I3) En Hk. apply FOP_map_inv in I1. rewrite Forall_map, Forall_forall in I2.
  assert (St : forall i, In i (neg ++ pos) -> isexact i = true -> settled p i).
  { intros i Hi Ei. destruct (I2 i Hi) as (x & X1 & X2 & _). split; [assumption|]. split; [auto|]. exists x. auto. }
  destruct (remove_exact_ok p HS (neg ++ pos) [] p (rel_start p Hl) I1 St) as (u1 & rs1 & A1 & A2 & A3); [intros ? ? ? ? []|]. rewrite app_nil_r in A2.
  assert (Disj : forall i j x, In i (neg ++ pos) -> In j (neg ++ pos) -> record_set i x -> record_set j x -> isexact i = true -> isexact j = false -> False).
  { clear - I1. induction I1 as [|a l F O IH]; intros i j x Hi Hj Xi Xj Ei Ej; [destruct Hi|]. rewrite Forall_forall in F. destruct Hi as [<-|Hi], Hj as [<-|Hj].
    - congruence.
    - pose proof (F j Hj x x Xi Xj). lra.
    - pose proof (F i Hi x x Xj Xi). lra.
    - exact (IH i j x Hi Hj Xi Xj Ei Ej). }
  assert (Pe : forall i, In i (neg ++ pos) -> settled p i \/ pending p rs1 i).
  { intros i Hi. destruct (isexact i) eqn:Ei; [left; auto|right]. split; [assumption|]. split; [exact (I2 i Hi)|]. split.
    - intros r Hr Xr. apply A3 in Hr. destruct Hr as (j & J1 & J2 & J3). exact (Disj j i r J1 Hi J3 Xr J2 Ei).
    - intros z Hz Zz. apply A3. exact (En i Hi Ei z Hz Zz). }
  destruct (FOP_app_inv _ _ _ I1) as (On & Op & Onp).
  destruct (go_ok p prec true (neg_step prec) (neg_step_ok p prec HS Hp) neg rs1 (negate_odd false u1)) as (v2 & outn & rs2 & B1 & B2 & B3 & f1 & B4).
  - apply (rel_neg _ _ _ false). assumption.
  - intros i Hi. apply Pe. apply in_or_app. auto.
  - assumption.
  - destruct (go_ok p prec false (pos_step prec) (pos_step_ok p prec HS Hp) pos (rs2 ++ rs1) (negate_odd false v2)) as (v3 & outp & rs3 & C1 & C2 & C3 & f2 & C4).
    + apply (rel_neg _ _ _ true). assumption.
    + intros i Hi. destruct (Pe i (in_or_app _ _ _ (or_intror Hi))) as [K|K]; [left; assumption|right]. apply pending_more; [assumption|]. intros r Hr Xr.
      destruct (B1 r Hr) as (j & J1 & J2). pose proof (Onp j i J1 Hi r r J2 Xr). lra.
    + assumption.
    + exists (outn ++ outp). split; [apply Forall2_app; assumption|]. exists (Nat.max f1 f2). intros fuel Hf. unfold refine_adaptative. rewrite A1. cbn [obind].
      rewrite refine_negs_go, B4 by lia. cbn [obind fst snd]. rewrite refine_poss_go, C4 by lia. reflexivity.
Qed.

Lemma refined_isolates p prec l out : isolates (zeval p) (map record_set l) -> Forall2 (refined p prec) l out -> isolates (zeval p) (map record_set out).
Proof.
  intros (I1 & I2 & I3) F. apply FOP_map_inv in I1. rewrite Forall_map, Forall_forall in I2. split; [|split].
  - apply FOP_map. clear I2 I3. revert I1. induction F as [|i j l out Rij F IH]; intros O; [constructor|]. inversion_clear O as [|? ? G O']. constructor; [|auto].
    rewrite Forall_forall in *. intros j' Hj' x y Hx Hy. destruct Rij as (S1 & _). clear - F G Hj' Hx Hy S1. revert G Hj'. induction F as [|i2 j2 l out R2 F IH]; intros G Hj'; [destruct Hj'|].
    destruct Hj' as [<-|Hj']; [|apply IH; [intros; apply G; right; assumption|assumption]]. destruct R2 as (S2 & _). exact (G i2 (or_introl eq_refl) x y (S1 x Hx) (S2 y Hy)).
  - rewrite Forall_map, Forall_forall. intros j Hj. clear I1 I3. induction F as [|i j0 l out Rij F IH]; [destruct Hj|]. destruct Hj as [<-|Hj]; [|apply IH; [intros; apply I2; right; assumption|assumption]].
    destruct Rij as (S1 & (x & X1 & X2) & _). destruct (I2 i (or_introl eq_refl)) as (x0 & Y1 & Y2 & Y3). exists x. split; [assumption|]. split; [assumption|]. intros y Hy Zy.
    rewrite (Y3 y (S1 y Hy) Zy). symmetry. apply Y3; auto.
  - intros x Zx. destruct (I3 x Zx) as (A & HA & Ax). apply in_map_iff in HA. destruct HA as (i & <- & Hi). clear I1 I3.
    assert (exists j, In j out /\ record_set j x).
    { induction F as [|i0 j0 l out Rij F IH]; [destruct Hi|]. destruct Hi as [->|Hi].
      - destruct Rij as (S1 & (x1 & X1 & X2) & _). destruct (I2 i (or_introl eq_refl)) as (x0 & Y1 & Y2 & Y3). exists j0. split; [left; reflexivity|].
        replace x with x1; [assumption|]. rewrite (Y3 x1), (Y3 x); auto.
      - destruct IH as (j & J1 & J2); [intros; apply I2; right; assumption|assumption|]. exists j. split; [right; assumption|assumption]. }
    destruct H as (j & J1 & J2). exists (record_set j). split; [apply in_map; assumption|assumption].
Qed.

(** ** real_roots *)
Lemma isolate_parts_eq fuel p : isolate fuel p = let? r := isolate_parts fuel p in Some (fst r ++ snd r).
Proof.
  unfold isolate, isolate_parts. destruct (getz p 0) as [a0|]; [cbn [obind]|reflexivity].
  match goal with |- obind ?X _ = _ => destruct X as [[u zero]|]; [cbn [obind]|reflexivity] end.
  destruct (isolate_side fuel false u) as [a|]; [cbn [obind]|reflexivity]. destruct (isolate_side fuel true (negate_odd false u)) as [b|]; reflexivity.
Qed.
Lemma merge_root_k neg b e : isexact (merge_root neg b e) = true -> (0 <= ik (merge_root neg b e))%Z.
Proof. unfold merge_root. destruct (Z.leb_spec (ek e) b); cbn [isexact ik]; [intros ->; lia|intros; lia]. Qed.
Lemma isolate_side_k fuel neg u l : isolate_side fuel neg u = Some l -> forall i, In i l -> isexact i = true -> (0 <= ik i)%Z.
Proof.
  unfold isolate_side. destruct (length u - 1 =? 0)%nat; [intros [= <-] i []|]. destruct (bound_roots u (length u - 1)) as [b|]; [cbn [obind]|discriminate].
  destruct (rescale_normalize u b) as [v|]; [cbn [obind]|discriminate]. destruct (init_flags (length u - 1)) as [f|]; [cbn [obind]|discriminate].
  destruct (bisect fuel v f 0 0) as [[[[u' f'] o] out]|]; [cbn [obind]|discriminate]. intros [= <-] i Hi. apply in_map_iff in Hi. destruct Hi as (e & <- & _). apply merge_root_k.
Qed.
Lemma isolate_parts_k fuel p r : isolate_parts fuel p = Some r -> forall i, In i (fst r ++ snd r) -> isexact i = true -> (0 <= ik i)%Z.
Proof.
  unfold isolate_parts. destruct (getz p 0) as [a0|]; [cbn [obind]|discriminate].
  match goal with |- obind ?X _ = _ -> _ => destruct X as [[u zero]|] eqn:Ez; [cbn [obind]|discriminate] end.
  destruct (isolate_side fuel false u) as [a|] eqn:Ea; [cbn [obind]|discriminate]. destruct (isolate_side fuel true (negate_odd false u)) as [b|] eqn:Eb; [cbn [obind]|discriminate].
  intros [= <-] i Hi Ei. cbn [fst snd] in Hi. rewrite !in_app_iff in Hi. destruct Hi as [Hi|[Hi|Hi]].
  - rewrite <- in_rev in Hi. eapply isolate_side_k; eassumption.
  - assert (zero = [] \/ zero = [{| numer := 0; ik := 0; isexact := true |}]) as [->| ->]; [|destruct Hi|destruct Hi as [<-|[]]; cbn; lia].
    destruct (a0 =? 0)%Z; [|injection Ez as _ <-; auto]. destruct (getz p 1) as [a1|]; [cbn [obind] in Ez|discriminate]. destruct (a1 =? 0)%Z; [discriminate|]. injection Ez as _ <-. auto.
  - exact (isolate_side_k _ _ _ _ Ea i Hi Ei).
Qed.
Lemma map_clear_id l : (forall i, In i l -> isexact i = true -> (0 <= ik i)%Z) -> map clear_k l = l.
Proof. intros H. induction l as [|i l IH]; [reflexivity|]. cbn [map]. rewrite clear_k_id by (apply H; left; reflexivity). f_equal. apply IH. intros; apply H; [right; assumption|assumption]. Qed.

Theorem real_roots_total p prec : lead_ok p -> simple_roots p ->
  exists l out f0, (forall fuel, (f0 <= fuel)%nat -> isolate fuel p = Some l /\ real_roots fuel p prec = Some out) /\ 
    (prec < 0 /\ out = l \/ 0 <= prec /\ Forall2 (refined p prec) l out)%Z.
Proof.
  intros Hl HS. destruct (isolate_total p Hl HS) as (f0 & F0). destruct (F0 f0 (le_n _)) as (l & El). 
  pose proof El as El'. rewrite isolate_parts_eq in El'. destruct (isolate_parts f0 p) as [[ng ps]|] eqn:Ep; [cbn [obind fst snd] in El'|discriminate]. injection El' as El'.
  pose proof (isolate_parts_k _ _ _ Ep) as Kk. cbn [fst snd] in Kk.
  destruct (isolate_sound _ _ _ Hl El) as [I En]. rewrite <- El' in I, En.
  assert (Pm : forall fuel, (f0 <= fuel)%nat -> isolate_parts fuel p = Some (ng, ps)).
  { intros fuel Hf. revert Ep. unfold isolate_parts. destruct (getz p 0) as [a0|]; [cbn [obind]|discriminate].
    match goal with |- obind ?X _ = _ -> _ => destruct X as [[u zero]|]; [cbn [obind]|discriminate] end.
    destruct (isolate_side f0 false u) as [lp|] eqn:E1; [cbn [obind]|discriminate]. destruct (isolate_side f0 true (negate_odd false u)) as [ln|] eqn:E2; [cbn [obind]|discriminate].
    rewrite (isolate_side_mono _ _ _ _ _ Hf E1). cbn [obind]. rewrite (isolate_side_mono _ _ _ _ _ Hf E2). auto. }
  assert (Cn : map clear_k ng = ng) by (apply map_clear_id; intros; apply Kk; [apply in_or_app; auto|assumption]).
  assert (Cp : map clear_k ps = ps) by (apply map_clear_id; intros; apply Kk; [apply in_or_app; auto|assumption]).
  destruct (negb (length (ng ++ ps) =? 0)%nat && (0 <=? prec)%Z)%bool eqn:T.
  - apply andb_prop in T. destruct T as [T1 T2]. pose proof (Zle_bool_imp_le _ _ T2) as Hp.
    destruct (refine_adaptative_ok p ng ps prec Hl HS Hp I En Kk) as (out & R & f1 & F1).
    exists l, out, (Nat.max f0 f1). split; [|right; rewrite <- El'; auto]. intros fuel Hf. split; [apply (isolate_mono f0); [lia|assumption]|].
    unfold real_roots. rewrite Pm by lia. cbn [obind fst snd]. rewrite Cn, Cp, T1, T2. cbn [andb]. rewrite F1 by lia. cbn [obind]. rewrite map_clear_id; [reflexivity|].
    intros j Hj Ej. clear - R Hj Ej. induction R as [|i0 j0 a b R0 R IH]; [destruct Hj|]. destruct Hj as [->|Hj]; [|auto]. destruct R0 as (_ & _ & [[_ K]|[K _]]); [assumption|congruence].
  - exists l, l, f0. split.
    + intros fuel Hf. split; [apply (isolate_mono f0); [lia|assumption]|]. unfold real_roots. rewrite Pm by assumption. cbn [obind fst snd]. rewrite Cn, Cp, T. cbn [obind]. rewrite map_app, Cn, Cp, El'. reflexivity.
    + destruct (Z.leb_spec 0 prec) as [Hp|Hp]; [right|left; auto]. split; [assumption|]. rewrite andb_true_r in T. assert (T0 : (length (ng ++ ps) = 0)%nat) by (destruct (Nat.eqb_spec (length (ng ++ ps)) 0); [assumption|discriminate]).
      rewrite <- El'. destruct (ng ++ ps); [constructor|discriminate].
Qed.

(** More fuel does not change the answer. *)
Lemma refine_pos_mono f1 f2 u rt prec s : (f1 <= f2)%nat -> refine_pos_root f1 u rt prec = Some s -> refine_pos_root f2 u rt prec = Some s.
Proof.
  intros L. unfold refine_pos_root. destruct (_ || _)%bool; [discriminate|]. set (s0 := Build_rstate _ _ _ _).
  destruct (qir_loop f1 s0 prec 2) as [s'|] eqn:E; [|discriminate]. rewrite (qir_mono _ _ _ _ _ _ L E). auto.
Qed.
Lemma go_mono step : (forall f1 f2 u i r, (f1 <= f2)%nat -> step f1 u i = Some r -> step f2 u i = Some r) -> forall f1 f2 l u r, (f1 <= f2)%nat -> go step f1 u l = Some r -> go step f2 u l = Some r.
Proof.
  intros H f1 f2. induction l as [|i l IH]; intros u r L; cbn [go]; [auto|]. destruct (step f1 u i) as [[u' j]|] eqn:E; [cbn [obind fst snd]|discriminate]. rewrite (H _ _ _ _ _ L E). cbn [obind fst snd].
  destruct (go step f1 u' l) as [t|] eqn:Et; [cbn [obind]|discriminate]. rewrite (IH _ _ L Et). auto.
Qed.
Lemma neg_step_mono prec f1 f2 u i r : (f1 <= f2)%nat -> neg_step prec f1 u i = Some r -> neg_step prec f2 u i = Some r.
Proof.
  intros L. unfold neg_step. destruct (isexact i); [auto|]. cbv zeta. destruct (refine_pos_root f1 u (mirror i) _) as [s|] eqn:E; [cbn [obind]|discriminate]. rewrite (refine_pos_mono _ _ _ _ _ _ L E). auto.
Qed.
Lemma pos_step_mono prec f1 f2 u i r : (f1 <= f2)%nat -> pos_step prec f1 u i = Some r -> pos_step prec f2 u i = Some r.
Proof.
  intros L. unfold pos_step. destruct (isexact i); [auto|]. cbv zeta. destruct (refine_pos_root f1 u i _) as [s|] eqn:E; [cbn [obind]|discriminate]. rewrite (refine_pos_mono _ _ _ _ _ _ L E). auto.
Qed.
Lemma real_roots_mono f1 f2 p prec out : (f1 <= f2)%nat -> real_roots f1 p prec = Some out -> real_roots f2 p prec = Some out.
Proof.
  intros L. unfold real_roots. destruct (isolate_parts f1 p) as [r|] eqn:Ep; [|discriminate].
  assert (Ep2 : isolate_parts f2 p = Some r).
  { revert Ep. unfold isolate_parts. destruct (getz p 0) as [a0|]; [cbn [obind]|discriminate].
    match goal with |- obind ?X _ = _ -> _ => destruct X as [[u zero]|]; [cbn [obind]|discriminate] end.
    destruct (isolate_side f1 false u) as [lp|] eqn:E1; [cbn [obind]|discriminate]. destruct (isolate_side f1 true (negate_odd false u)) as [ln|] eqn:E2; [cbn [obind]|discriminate].
    rewrite (isolate_side_mono _ _ _ _ _ L E1). cbn [obind]. rewrite (isolate_side_mono _ _ _ _ _ L E2). auto. }
  rewrite Ep2. cbn [obind]. destruct (_ && _)%bool; [|auto]. unfold refine_adaptative. destruct (remove_exact_roots p _) as [u1|]; [cbn [obind]|discriminate]. rewrite !refine_negs_go.
  destruct (go (neg_step prec) f1 _ _) as [rn|] eqn:E1; [cbn [obind]|discriminate]. rewrite (go_mono _ (neg_step_mono prec) _ _ _ _ _ L E1). cbn [obind]. rewrite !refine_poss_go.
  destruct (go (pos_step prec) f1 _ _) as [rp|] eqn:E2; [cbn [obind]|discriminate]. rewrite (go_mono _ (pos_step_mono prec) _ _ _ _ _ L E2). auto.
Qed.
