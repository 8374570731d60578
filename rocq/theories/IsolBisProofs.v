(** The bisection lists every root once: partial correctness of [bisect]. *)
From Coq Require Import ZArith List Arith Lia Reals Lra Bool.
From Verif Require Import PolySpec IsolSpec ModInvModel TaylorModel DescModel IsolModel.
From Verif Require Import PolyProofs TaylorProofs DescProofs DescLoopProofs RootProofs IsolProofs.
Import ListNotations.
Open Scope R_scope.

(** ** Output entries *)
Definition lo (e : entry) : R := IZR (ec e) * p2 (- ek e).
Definition hi (e : entry) : R := (IZR (ec e) + 1) * p2 (- ek e).
Definition mem (e : entry) (x : R) : Prop := if exact e then x = lo e else lo e < x < hi e.

Fixpoint prodr (rs : list R) (y : R) : R := match rs with [] => 1 | r :: rs' => (y - r) * prodr rs' y end.
Lemma prodr_app a b y : prodr (a ++ b) y = prodr a y * prodr b y.
Proof. induction a as [|r a IH]; cbn [app prodr]; [ring|]. rewrite IH. ring. Qed.
Lemma prodr_nz rs y : (forall r, In r rs -> r <> y) -> prodr rs y <> 0.
Proof.
  induction rs as [|r rs IH]; intros H; cbn [prodr]; [lra|]. apply Rmult_integral_contrapositive. split.
  - specialize (H r (or_introl eq_refl)). lra.
  - apply IH. intros x Hx. apply H. right. assumption.
Qed.
Lemma prodr_zero rs y : In y rs -> prodr rs y = 0.
Proof. induction rs as [|r rs IH]; intros H; [destruct H|]. cbn [prodr]. destruct H as [->|H]; [ring|]. rewrite IH by assumption. ring. Qed.

(** [out] lists the roots of [P] in (a, b); [rs] are the roots divided out, [P'] what remains. *)
Record res (P : list R) (a b : R) (P' : list R) (rs : list R) (out : list entry) : Prop := {
  r_prod : forall y, peval P y = prodr rs y * peval P' y;
  r_len : length P = (length rs + length P')%nat;
  r_len2 : (2 <= length P')%nat;
  r_ex : forall r, In r rs -> exists e, In e out /\ exact e = true /\ lo e = r;
  r_nz : forall r, In r rs -> peval P' r <> 0;
  r_nodup : NoDup rs;
  r_in : forall e x, In e out -> mem e x -> a < x < b;
  r_one : forall e, In e out -> exists x, mem e x /\ peval P x = 0 /\ forall y, mem e y -> peval P y = 0 -> y = x;
  r_ord : ForallOrdPairs (fun e1 e2 => forall x y, mem e1 x -> mem e2 y -> x < y) out;
  r_ends : forall e, In e out -> exact e = false -> forall z, z = lo e \/ z = hi e ->
     a <= z <= b /\ (peval P z = 0 -> exists e', In e' out /\ exact e' = true /\ lo e' = z)
}.

Lemma res_rs P a b P' rs out : res P a b P' rs out -> forall r, In r rs -> a < r < b.
Proof.
  intros H r Hr. destruct (r_ex _ _ _ _ _ _ H r Hr) as (e & He & Ex & <-). apply (r_in _ _ _ _ _ _ H e); [assumption|].
  unfold mem. rewrite Ex. reflexivity.
Qed.

Lemma FOP_app {A} (R : A -> A -> Prop) l1 l2 : ForallOrdPairs R l1 -> ForallOrdPairs R l2 ->
  (forall x y, In x l1 -> In y l2 -> R x y) -> ForallOrdPairs R (l1 ++ l2).
Proof.
  induction l1 as [|a l1 IH]; intros H1 H2 H; [assumption|]. inversion_clear H1 as [|? ? F H1']. cbn [app]. constructor.
  - apply Forall_app. split; [assumption|]. apply Forall_forall. intros y Hy. apply H; [left; reflexivity|assumption].
  - apply IH; [assumption|assumption|]. intros x y Hx Hy. apply H; [right; assumption|assumption].
Qed.

(** Optional root in the middle. *)
Lemma half_mem c k b e : In e (half_entry c k b) -> b = true /\ exact e = true /\ lo e = IZR c * wd k + wd k / 2.
Proof.
  unfold half_entry. destruct b; cbn [In]; [|tauto]. intros [<-|[]]. split; [reflexivity|]. split; [reflexivity|].
  unfold lo. cbn [ec ek]. rewrite wd_p2, Z.opp_add_distr, p2_add, plus_IZR, mult_IZR. change (p2 (- (1))) with (/ (2 * 1)). field.
Qed.
Lemma half_in c k : exists e, In e (half_entry c k true) /\ exact e = true /\ lo e = IZR c * wd k + wd k / 2.
Proof.
  exists {| ec := 2 * c + 1; ek := Z.of_nat k + 1; exact := true |}. split; [left; reflexivity|]. apply (half_mem c k true). left. reflexivity.
Qed.

(** ** Facts about one node polynomial *)
Lemma sgn_at_one u : sign_at_one u = Z.sgn (zev u 1).
Proof. unfold sign_at_one. f_equal. induction u as [|a u IH]; [reflexivity|]. cbn [fold_right zev]. rewrite IH. ring. Qed.
Lemma zeval_0 u : zeval u 0 = IZR (nth 0 u 0%Z).
Proof. destruct u as [|a u]; [reflexivity|]. rewrite zeval_cons. cbn [nth]. ring. Qed.
Lemma zeval_1 u : zeval u 1 = IZR (zev u 1).
Proof. rewrite <- zeval_IZR. reflexivity. Qed.

Lemma lastnz_last l : forall s b, b <> 0 -> lastnz s (l ++ [b]) = b.
Proof.
  induction l as [|a l IH]; intros s b Hb; cbn [app lastnz].
  - destruct (Req_EM_T b 0); [contradiction|reflexivity].
  - destruct (Req_EM_T a 0); apply IH; assumption.
Qed.

(** One variation: the signs at 0 and 1 differ. *)
Lemma dvar_one_sign u : lead_ok u -> nth 0 u 0%Z <> 0%Z -> zeval u 1 <> 0 -> dvar u = 1%nat -> zeval u 0 * zeval u 1 < 0.
Proof.
  intros Hl H0 H1 D. unfold dvar in D. rewrite <- chg_variations in D.
  set (q := tsh (rev u)) in *.
  assert (Q0 : zeval q 0 = zeval u 1).
  { unfold q. rewrite moebius_eval by lra. replace (0 + 1) with 1 by ring. rewrite Rinv_1, pow1. ring. }
  destruct u as [|u0 t]; [destruct Hl as [[] _]; reflexivity|].
  assert (Lq : length q = S (length t)) by (unfold q; rewrite tsh_length, rev_length; reflexivity).
  assert (Eq : nth (length t) q 0%Z = u0).
  { unfold q. pose proof (tsh_last (rev (u0 :: t))) as K. rewrite rev_length in K. cbn [length] in K.
    replace (S (length t) - 1)%nat with (length t) in K by lia. rewrite K.
    - cbn [rev]. rewrite app_nth2; rewrite rev_length; [|lia]. rewrite Nat.sub_diag. reflexivity.
    - intros N. apply (f_equal (@length Z)) in N. rewrite rev_length in N. discriminate. }
  destruct (exists_last (l := q)) as (q' & z & Ez); [intros N; rewrite N in Lq; discriminate|].
  assert (Lz : z = u0).
  { rewrite Ez, app_length in Lq. cbn in Lq. rewrite <- Eq, Ez. rewrite app_nth2 by lia. replace (length t - length q')%nat with 0%nat by lia. reflexivity. }
  subst z. destruct q' as [|q0 q'].
  - exfalso. rewrite Ez in D. cbn [app map chg] in D. destruct (Rlt_dec (0 * IZR u0) 0); [lra|]. destruct (Req_EM_T (IZR u0) 0); discriminate.
  - rewrite Ez in D. cbn [app map] in D. rewrite Ez, zeval_0 in Q0. cbn [app nth] in Q0.
    assert (N0 : IZR q0 <> 0) by (rewrite Q0; assumption).
    rewrite chg0_start in D by assumption. pose proof (chg_parity (map IZR (q' ++ [u0])) (IZR q0) N0) as K. rewrite D in K. cbn [Nat.even] in K.
    rewrite map_app in K. cbn [map] in K. cbn [nth] in H0. rewrite lastnz_last in K by (intros N; apply eq_IZR in N; contradiction).
    rewrite zeval_0, <- Q0. cbn [nth]. lra.
Qed.

(** Intermediate values. *)
Lemma neg_split a b : a * b < 0 -> (a < 0 /\ 0 < b) \/ (0 < a /\ b < 0).
Proof.
  intros H. destruct (Rtotal_order a 0) as [A|[->|A]]; [left|lra|right]; (split; [assumption|]).
  - destruct (Rlt_le_dec 0 b); [assumption|]. exfalso. assert (0 <= (- a) * (- b)) by (apply Rmult_le_pos; lra). lra.
  - destruct (Rlt_le_dec b 0); [assumption|]. exfalso. assert (0 <= a * b) by (apply Rmult_le_pos; lra). lra.
Qed.
Lemma ivt u x y : x < y -> zeval u x * zeval u y < 0 -> exists z, x < z < y /\ root u z.
Proof.
  intros L H. assert (C : continuity (zeval u)) by apply peval_cont.
  assert (G : exists z, x <= z <= y /\ zeval u z = 0).
  { destruct (neg_split _ _ H) as [[A B]|[A B]].
    - destruct (IVT (zeval u) x y C L A B) as (z & Hz & E). eauto.
    - destruct (IVT (fun t => - zeval u t) x y) as (z & Hz & E); [apply continuity_opp; assumption|assumption|lra|lra|].
      exists z. split; [assumption|lra]. }
  destruct G as (z & [G1 G2] & E). exists z. split; [|exact E].
  split; [destruct G1 as [G1|G1]; [assumption|subst z]|destruct G2 as [G2|G2]; [assumption|subst z]]; rewrite E in H; lra.
Qed.

(** No variation in the coefficients: no positive root. *)
Lemma no_positive u : lead_ok u -> variations u = 0%nat -> forall x, 0 < x -> ~ root u x.
Proof.
  intros Hl V x Hx R. assert (Nz : exists a, In a (map IZR u) /\ a <> 0).
  { destruct Hl as [H1 H2]. destruct (exists_last H1) as (v & b & ->). rewrite last_last in H2. exists (IZR b). split.
    - apply in_map, in_or_app. right. left. reflexivity.
    - intros N. apply eq_IZR in N. contradiction. }
  pose proof (descartes_upper (map IZR u) [x] Nz I) as K.
  rewrite <- chg_variations in V. rewrite V in K. cbn [length] in K.
  assert (1 <= 0)%nat; [|lia]. apply K. intros y [<-|[]]. split; assumption.
Qed.

(** Position of the half-open entries of a node. *)
Lemma node_lo c k ex : lo {| ec := c; ek := Z.of_nat k; exact := ex |} = IZR c * wd k.
Proof. unfold lo. cbn [ec ek]. rewrite wd_p2. reflexivity. Qed.
Lemma node_hi c k ex : hi {| ec := c; ek := Z.of_nat k; exact := ex |} = IZR c * wd k + wd k.
Proof. unfold hi. cbn [ec ek]. rewrite wd_p2. ring. Qed.
Lemma left_lo c k ex : lo {| ec := 2 * c; ek := Z.of_nat k + 1; exact := ex |} = IZR c * wd k.
Proof. replace (Z.of_nat k + 1)%Z with (Z.of_nat (S k)) by lia. rewrite node_lo, wd_S, mult_IZR. field. Qed.
Lemma left_hi c k ex : hi {| ec := 2 * c; ek := Z.of_nat k + 1; exact := ex |} = IZR c * wd k + wd k / 2.
Proof. replace (Z.of_nat k + 1)%Z with (Z.of_nat (S k)) by lia. rewrite node_hi, wd_S, mult_IZR. field. Qed.
Lemma right_lo c k ex : lo {| ec := 2 * c + 1; ek := Z.of_nat k + 1; exact := ex |} = IZR c * wd k + wd k / 2.
Proof. replace (Z.of_nat k + 1)%Z with (Z.of_nat (S k)) by lia. rewrite node_lo, wd_S, plus_IZR, mult_IZR. field. Qed.
Lemma right_hi c k ex : hi {| ec := 2 * c + 1; ek := Z.of_nat k + 1; exact := ex |} = IZR c * wd k + wd k.
Proof. replace (Z.of_nat k + 1)%Z with (Z.of_nat (S k)) by lia. rewrite node_hi, wd_S, plus_IZR, mult_IZR. field. Qed.

(** ** The root at the middle *)
Lemma is_zero_root_ok u c k : lead_ok u -> zeval u 0 <> 0 -> is_zero_root u c k = Some (u, []).
Proof.
  intros [H _] H0. destruct u as [|a u]; [contradiction|]. unfold is_zero_root. cbn [getz nth_error obind]. rewrite zeval_0 in H0. cbn [nth] in H0.
  destruct (Z.eqb_spec a 0) as [->|_]; [contradiction|reflexivity].
Qed.

Definition half_fact (P P1 : list R) (mid : R) (half : bool) : Prop :=
  peval P1 mid <> 0 /\
  if half then length P = S (length P1) /\ forall y, peval P y = (y - mid) * peval P1 y
  else P1 = P.
Lemma manage_half_ok P a w u f r : (2 <= length P)%nat -> 0 < w -> inv P a w u -> flags_ok f (length P - 1) -> manage_half u f = Some r ->
  exists P1 u1 f1 half, r = (u1, f1, half, sgn_onehalf u1) /\ (2 <= length P1)%nat /\ inv P1 a w u1 /\ flags_ok f1 (length P1 - 1) /\
    half_fact P P1 (a + w / 2) half /\ zeval u1 (/ 2) <> 0.
Proof.
  intros HP Hw I F H. unfold manage_half in H. pose proof I as (L & [Nu _] & _).
  destruct (Z.eqb_spec (sgn_onehalf u) 0) as [Z0|Z0].
  - apply (sgn_onehalf_zero u Nu) in Z0. destruct (numer_quotient_ok P a w u HP I Z0 ltac:(lra)) as (q & Q & Eq & LQ & IQ & EP).
    rewrite Eq in H. cbn [obind] in H. pose proof IQ as (Lq & [Nq _] & _). 
    destruct (Z.eqb_spec (sgn_onehalf q) 0) as [Z1|Z1]; [discriminate|].
    destruct (update_flags (length q - 1) f) as [f'|] eqn:Ef; [|discriminate]. cbn [obind] in H. injection H as <-.
    assert (2 <= length Q)%nat.
    { destruct (Nat.le_gt_cases 2 (length Q)) as [|K]; [assumption|exfalso]. unfold update_flags in Ef.
      replace (length q - 1)%nat with 0%nat in Ef by lia. cbn in Ef. discriminate. }
    assert (Z1' : zeval q (/ 2) <> 0) by (intros N; apply Z1; apply (sgn_onehalf_zero q Nq); exact N).
    exists Q, q, f', true. split; [reflexivity|]. split; [assumption|]. split; [assumption|]. split.
    { destruct (update_flags_ok (length q - 1) f) as (f'' & E'' & F''); [lia|eapply flags_ok_le; [exact F|lia]|]. rewrite Ef in E''. injection E'' as <-. rewrite <- Lq. assumption. }
    split; [|assumption]. split; [|split; assumption]. intros N. apply Z1'. apply (inv_root Q a w q (/ 2) IQ). rewrite <- N. f_equal. 
  - injection H as <-. assert (Z1' : zeval u (/ 2) <> 0) by (intros N; apply Z0; apply (sgn_onehalf_zero u Nu); exact N).
    exists P, u, f, false. split; [reflexivity|]. repeat (split; [assumption|]). split; [|assumption]. split; [|reflexivity].
    intros N. apply Z1'. apply (inv_root P a w u (/ 2) I). rewrite <- N. f_equal.
Qed.

Lemma half_fact_nz P P1 mid half y : half_fact P P1 mid half -> peval P y <> 0 -> peval P1 y <> 0.
Proof. intros [_ H] N. destruct half; [|subst; assumption]. destruct H as [_ H]. intros Z0. apply N. rewrite H, Z0. ring. Qed.
Lemma half_fact_iff P P1 mid half y : half_fact P P1 mid half -> y <> mid -> (peval P y = 0 <-> peval P1 y = 0).
Proof.
  intros [_ H] N. destruct half; [|subst; tauto]. destruct H as [_ H]. rewrite H. split; [|intros ->; ring].
  intros Z0. apply Rmult_integral in Z0. destruct Z0; [lra|assumption].
Qed.
Lemma half_fact_mid P P1 mid half : half_fact P P1 mid half -> peval P mid = 0 -> half = true.
Proof. intros [N H] Z0. destruct half; [reflexivity|]. subst. contradiction. Qed.

(** What remains and what was divided at a leaf. *)
Definition half_list (half : bool) (mid : R) : list R := if half then [mid] else [].

Lemma leaf_res P P1 c k half out :
  (2 <= length P1)%nat -> half_fact P P1 (IZR c * wd k + wd k / 2) half ->
  (forall e, In e (half_entry c k half) -> In e out) ->
  (forall e x, In e out -> mem e x -> IZR c * wd k < x < IZR c * wd k + wd k) ->
  (forall e, In e out -> exists x, mem e x /\ peval P x = 0 /\ forall y, mem e y -> peval P y = 0 -> y = x) ->
  ForallOrdPairs (fun e1 e2 => forall x y, mem e1 x -> mem e2 y -> x < y) out ->
  (forall e, In e out -> exact e = false -> forall z, z = lo e \/ z = hi e ->
     IZR c * wd k <= z <= IZR c * wd k + wd k /\ (peval P z = 0 -> exists e', In e' out /\ exact e' = true /\ lo e' = z)) ->
  res P (IZR c * wd k) (IZR c * wd k + wd k) P1 (half_list half (IZR c * wd k + wd k / 2)) out.
Proof.
  intros HL HF Hh H1 H2 H3 H4. destruct HF as [N HF].
  split; [| | | | | |assumption|assumption|assumption|assumption].
  - intros y. destruct half; cbn [half_list prodr]; [destruct HF as [_ HF]; rewrite HF; ring|subst; ring].
  - destruct half; cbn [half_list length]; [destruct HF as [HF _]; lia|subst; lia].
  - assumption.
  - intros r Hr. destruct half; [|destruct Hr]. destruct Hr as [<-|[]]. destruct (half_in c k) as (e & He & E). exists e. auto.
  - intros r Hr. destruct half; [|destruct Hr]. destruct Hr as [<-|[]]. assumption.
  - destruct half; cbn [half_list]; repeat constructor; auto.
Qed.

(** ** Leaves *)
Definition covered (P : list R) (a b : R) (out : list entry) : Prop := forall y, a < y < b -> peval P y = 0 -> exists e, In e out /\ mem e y.

Lemma to_unit a w y : 0 < w -> (0 < (y - a) / w < 1 <-> a < y < a + w).
Proof.
  intros Hw. assert (E : y = a + w * ((y - a) / w)) by (field; lra). set (t := (y - a) / w) in *. clearbody t. subst y. split; intros [H1 H2]; split; nra.
Qed.
Lemma to_root P a w u y : 0 < w -> inv P a w u -> (root u ((y - a) / w) <-> peval P y = 0).
Proof. intros Hw H. symmetry. apply inv_root'; [lra|assumption]. Qed.
Lemma of_unit a w t : 0 < w -> (a + w * t - a) / w = t.
Proof. intros. field. lra. Qed.

Section Leaf.
Variables (P P1 : list R) (c : Z) (k : nat) (u1 : list Z) (half : bool).
Let a := IZR c * wd k.
Let w := wd k.
Hypothesis HL : (2 <= length P1)%nat.
Hypothesis HI : inv P1 a w u1.
Hypothesis HF : half_fact P P1 (a + w / 2) half.
Hypothesis Ha : peval P a <> 0.
Hypothesis Hb : peval P (a + w) <> 0.

Let Hw : 0 < w := wd_pos k.
Let rs := half_list half (a + w / 2).

Lemma u1_0 : zeval u1 0 <> 0.
Proof. intros N. apply (inv_root _ _ _ _ _ HI) in N. rewrite Rmult_0_r, Rplus_0_r in N. revert N. eapply half_fact_nz; eassumption. Qed.
Lemma u1_1 : zeval u1 1 <> 0.
Proof. intros N. apply (inv_root _ _ _ _ _ HI) in N. rewrite Rmult_1_r in N. revert N. eapply half_fact_nz; eassumption. Qed.
Lemma u1_lead : lead_ok u1.
Proof. exact (proj1 (proj2 HI)). Qed.

(** Entries of a leaf: the half root and entries with one root of [P1]. *)
Lemma half_entries e : In e (half_entry c k half) ->
  (forall x, mem e x -> a < x < a + w) /\ exists x, mem e x /\ peval P x = 0 /\ forall y, mem e y -> peval P y = 0 -> y = x.
Proof.
  intros He. apply half_mem in He. destruct He as (-> & Ex & El). fold a w in El. unfold mem. rewrite Ex. split.
  - intros x ->. lra.
  - exists (lo e). split; [reflexivity|]. split; [|auto]. rewrite El. destruct HF as [_ [_ E]]. rewrite E. ring.
Qed.
Lemma half_cover y : peval P y = 0 -> y <> a + w / 2 \/ exists e, In e (half_entry c k half) /\ mem e y.
Proof.
  intros Z0. destruct (Req_dec y (a + w / 2)) as [->|N]; [right|left; assumption].
  pose proof (half_fact_mid _ _ _ _ HF Z0) as ->. destruct (half_in c k) as (e & He & Ex & El). exists e. split; [assumption|].
  unfold mem. rewrite Ex, El. reflexivity.
Qed.

Lemma leaf_zero : (forall y, a < y < a + w -> peval P1 y <> 0) -> res P a (a + w) P1 rs (half_entry c k half).
Proof.
  intros H. apply leaf_res; fold a w; auto.
  - intros e x He Hx. exact (proj1 (half_entries e He) x Hx).
  - intros e He. exact (proj2 (half_entries e He)).
  - unfold half_entry. destruct half; repeat constructor.
  - intros e He Ex. apply half_mem in He. destruct He as (_ & K & _). congruence.
Qed.
Lemma leaf_zero_cover : (forall y, a < y < a + w -> peval P1 y <> 0) -> covered P a (a + w) (half_entry c k half).
Proof.
  intros H y Hy Z0. destruct (half_cover y Z0) as [N|He]; [|assumption]. exfalso. apply (H y Hy).
  apply (half_fact_iff P P1 (a + w / 2) half y HF N). assumption.
Qed.
Lemma leaf_zero_cover' : (forall y, a < y -> peval P1 y <> 0) -> forall y, a < y -> peval P y = 0 -> exists e, In e (half_entry c k half) /\ mem e y.
Proof.
  intros H y Hy Z0. destruct (half_cover y Z0) as [N|He]; [|assumption]. exfalso. apply (H y Hy).
  apply (half_fact_iff P P1 (a + w / 2) half y HF N). assumption.
Qed.

(** A half-open part of the node with exactly one root of [P1]. *)
Definition part (e : entry) (l h : R) : Prop := exact e = false /\ lo e = l /\ hi e = h.
Lemma part_mem e l h : part e l h -> forall x, mem e x <-> l < x < h.
Proof. intros (E & <- & <-) x. unfold mem. rewrite E. tauto. Qed.
Definition one_root (Q : list R) (l h : R) : Prop := exists x, l < x < h /\ peval Q x = 0 /\ forall y, l < y < h -> peval Q y = 0 -> y = x.
Lemma part_one e l h : part e l h -> (h <= a + w / 2 \/ a + w / 2 <= l \/ half = false) -> one_root P1 l h ->
  exists x, mem e x /\ peval P x = 0 /\ forall y, mem e y -> peval P y = 0 -> y = x.
Proof.
  intros Hp Hm (x & Hx & Z0 & U). exists x. rewrite (part_mem _ _ _ Hp). split; [assumption|].
  assert (G : forall y, l < y < h -> peval P y = 0 <-> peval P1 y = 0).
  { intros y Hy. destruct Hm as [Hm|[Hm|Hm]].
    - apply (half_fact_iff P P1 (a + w / 2) half); [assumption|lra].
    - apply (half_fact_iff P P1 (a + w / 2) half); [assumption|lra].
    - clear - HF Hm. rewrite Hm in HF. destruct HF as [_ ->]. tauto. }
  split; [apply G; assumption|]. intros y Hy Zy. rewrite (part_mem _ _ _ Hp) in Hy. apply U; [assumption|]. apply G; assumption.
Qed.
Lemma part_ends e l h out : part e l h -> (l = a \/ l = a + w / 2) -> (h = a + w / 2 \/ h = a + w) ->
  (forall e, In e (half_entry c k half) -> In e out) ->
  forall z, z = lo e \/ z = hi e -> a <= z <= a + w /\ (peval P z = 0 -> exists e', In e' out /\ exact e' = true /\ lo e' = z).
Proof.
  intros (_ & El & Eh) Hl Hh Ho z Hz. rewrite El, Eh in Hz. split; [lra|]. intros Z0.
  assert (z = a \/ z = a + w \/ z = a + w / 2) as [->|[->| ->]] by lra; [contradiction|contradiction|].
  pose proof (half_fact_mid _ _ _ _ HF Z0) as K. rewrite K in Ho. destruct (half_in c k) as (e' & He & E). exists e'. auto.
Qed.

(** l.483-591 *)
Lemma leaf_one bot top : dvar u1 = 1%nat -> bot = Z.sgn (nth 0 u1 0%Z) -> top = sign_at_one u1 -> zeval u1 (/ 2) <> 0 ->
  res P a (a + w) P1 rs (nb_1_case c k half bot top (sgn_onehalf u1)) /\ covered P a (a + w) (nb_1_case c k half bot top (sgn_onehalf u1)).
Proof.
  intros D -> -> Hh. pose proof u1_0 as U0. pose proof u1_1 as U1. pose proof u1_lead as UL.
  assert (Nu : u1 <> []) by exact (proj1 UL).
  assert (N0 : nth 0 u1 0%Z <> 0%Z) by (intros N; apply U0; rewrite zeval_0, N; reflexivity).
  assert (T : Z.eqb (sign_at_one u1) 0 = false).
  { apply Z.eqb_neq. rewrite sgn_at_one. intros N. apply (proj1 (Z.sgn_null_iff _)) in N. apply U1. rewrite zeval_1, N. reflexivity. }
  destruct (dvar_one u1 UL D) as (x & Hx & Rx & Ux).
  assert (One : one_root P1 a (a + w)).
  { exists (a + w * x). split; [|split].
    - apply to_unit; [assumption|]. rewrite of_unit; assumption.
    - apply (inv_root _ _ _ _ _ HI). assumption.
    - intros y Hy Zy. apply (to_unit a w y Hw) in Hy. apply (to_root P1 a w u1 y Hw HI) in Zy. rewrite <- (Ux _ Hy Zy). field. lra. }
  unfold nb_1_case. rewrite T. cbn [negb].
  assert (Eh : half = true \/ half = false) by (destruct half; auto). destruct Eh as [Eh|Eh]; rewrite Eh; cbv iota.
  - destruct (Z.ltb (Z.sgn (nth 0 u1 0%Z) * sgn_onehalf u1) 0) eqn:B.
    + apply (sgn_onehalf_sign u1 _ Nu) in B. rewrite <- zeval_0 in B. destruct (ivt u1 0 (/ 2) ltac:(lra) B) as (z & Hz & Rz).
      set (e1 := {| ec := 2 * c; ek := Z.of_nat k + 1; exact := false |}). set (e2 := {| ec := 2 * c + 1; ek := Z.of_nat k + 1; exact := true |}).
      assert (p1 : part e1 a (a + w / 2)) by (split; [reflexivity|]; split; [apply left_lo|apply left_hi]).
      assert (He2 : In e2 (half_entry c k true)) by (left; reflexivity).
      assert (L2 : lo e2 = a + w / 2) by apply right_lo.
      assert (O1 : one_root P1 a (a + w / 2)).
      { destruct One as (y & Hy & Zy & Uy). assert (Ey : a + w * z = y).
        { apply Uy; [|apply (inv_root _ _ _ _ _ HI); assumption]. apply to_unit; [assumption|]. rewrite of_unit by assumption. lra. }
        exists y. split; [|split; [assumption|]].
        - rewrite <- Ey. split; [|nra]. nra.
        - intros t Ht Zt. apply Uy; [lra|assumption]. }
      split.
      * apply leaf_res; fold a w; try assumption.
        -- rewrite Eh. intros e [<-|[]]. right. left. reflexivity.
        -- intros e x' [<-|[<-|[]]] Hm; [rewrite (part_mem _ _ _ p1) in Hm; lra|]. apply (half_entries e2); [rewrite Eh; assumption|assumption].
        -- intros e [<-|[<-|[]]]; [|apply half_entries; rewrite Eh; assumption]. eapply part_one; [eassumption|left; lra|assumption].
        -- constructor; [|constructor; constructor]. constructor; [|constructor]. intros x' y' Hx' Hy'. rewrite (part_mem _ _ _ p1) in Hx'. unfold mem in Hy'. cbn [exact e2] in Hy'. rewrite L2 in Hy'. lra.
        -- intros e [<-|[<-|[]]] Ex z' Hz'; [|discriminate Ex]. eapply part_ends; [eassumption|left; reflexivity|left; reflexivity| |assumption].
           rewrite Eh. intros e [<-|[]]. right. left. reflexivity.
      * intros y Hy Zy. destruct (half_cover y Zy) as [N|(e & He & Hm)].
        -- apply (half_fact_iff P P1 (a + w / 2) half y HF N) in Zy. exists e1. split; [left; reflexivity|]. rewrite (part_mem _ _ _ p1).
           destruct One as (y0 & Hy0 & Zy0 & Uy0). rewrite (Uy0 y Hy Zy). destruct O1 as (y1 & Hy1 & Zy1 & _). rewrite <- (Uy0 y1); [assumption|lra|assumption].
        -- rewrite Eh in He. destruct He as [<-|[]]. exists e2. split; [right; left; reflexivity|assumption].
    + assert (Sg : zeval u1 0 * zeval u1 1 < 0) by (apply dvar_one_sign; assumption).
      assert (B' : ~ IZR (nth 0 u1 0%Z) * zeval u1 (/ 2) < 0) by (intros K; apply (sgn_onehalf_sign u1 _ Nu) in K; congruence).
      rewrite <- zeval_0 in B'.
      assert (B2 : zeval u1 (/ 2) * zeval u1 1 < 0).
      { destruct (neg_split _ _ Sg) as [[S1 S2]|[S1 S2]].
        - destruct (Rtotal_order (zeval u1 (/ 2)) 0) as [K|[K|K]]; [nra|contradiction|exfalso; apply B'; nra].
        - destruct (Rtotal_order (zeval u1 (/ 2)) 0) as [K|[K|K]]; [exfalso; apply B'; nra|contradiction|nra]. }
      destruct (ivt u1 (/ 2) 1 ltac:(lra) B2) as (z & Hz & Rz).
      set (e2 := {| ec := 2 * c + 1; ek := Z.of_nat k + 1; exact := true |}). set (e3 := {| ec := 2 * c + 1; ek := Z.of_nat k + 1; exact := false |}).
      assert (p3 : part e3 (a + w / 2) (a + w)) by (split; [reflexivity|]; split; [apply right_lo|apply right_hi]).
      assert (He2 : In e2 (half_entry c k true)) by (left; reflexivity).
      assert (L2 : lo e2 = a + w / 2) by apply right_lo.
      assert (O1 : one_root P1 (a + w / 2) (a + w)).
      { destruct One as (y & Hy & Zy & Uy). assert (Ey : a + w * z = y).
        { apply Uy; [|apply (inv_root _ _ _ _ _ HI); assumption]. apply to_unit; [assumption|]. rewrite of_unit by assumption. lra. }
        exists y. split; [|split; [assumption|]].
        - rewrite <- Ey. split; nra.
        - intros t Ht Zt. apply Uy; [lra|assumption]. }
      split.
      * apply leaf_res; fold a w; try assumption.
        -- rewrite Eh. intros e [<-|[]]. left. reflexivity.
        -- intros e x' [<-|[<-|[]]] Hm; [|rewrite (part_mem _ _ _ p3) in Hm; lra]. apply (half_entries e2); [rewrite Eh; assumption|assumption].
        -- intros e [<-|[<-|[]]]; [apply half_entries; rewrite Eh; assumption|]. eapply part_one; [eassumption|right; left; lra|assumption].
        -- constructor; [|constructor; constructor]. constructor; [|constructor]. intros x' y' Hx' Hy'. rewrite (part_mem _ _ _ p3) in Hy'. unfold mem in Hx'. cbn [exact e2] in Hx'. rewrite L2 in Hx'. lra.
        -- intros e [<-|[<-|[]]] Ex z' Hz'; [discriminate Ex|]. eapply part_ends; [eassumption|right; reflexivity|right; reflexivity| |assumption].
           rewrite Eh. intros e [<-|[]]. left. reflexivity.
      * intros y Hy Zy. destruct (half_cover y Zy) as [N|(e & He & Hm)].
        -- apply (half_fact_iff P P1 (a + w / 2) half y HF N) in Zy. exists e3. split; [right; left; reflexivity|]. rewrite (part_mem _ _ _ p3).
           destruct One as (y0 & Hy0 & Zy0 & Uy0). rewrite (Uy0 y Hy Zy). destruct O1 as (y1 & Hy1 & Zy1 & _). rewrite <- (Uy0 y1); [assumption|lra|assumption].
        -- rewrite Eh in He. destruct He as [<-|[]]. exists e2. split; [left; reflexivity|assumption].
  - set (e1 := {| ec := c; ek := Z.of_nat k; exact := false |}).
    assert (p1 : part e1 a (a + w)) by (split; [reflexivity|]; split; [apply node_lo|apply node_hi]).
    split.
    + apply leaf_res; fold a w; try assumption.
      * rewrite Eh. intros e [].
      * intros e x' [<-|[]] Hm. rewrite (part_mem _ _ _ p1) in Hm. lra.
      * intros e [<-|[]]. eapply part_one; [eassumption|right; right; assumption|assumption].
      * repeat constructor.
      * intros e [<-|[]] Ex z' Hz'. eapply part_ends; [eassumption|left; reflexivity|right; reflexivity| |assumption]. rewrite Eh. intros e [].
    + intros y Hy Zy. exists e1. split; [left; reflexivity|]. rewrite (part_mem _ _ _ p1). assumption.
Qed.

(** l.594-669 *)
Lemma leaf_two bot top : dvar u1 = 2%nat -> bot = Z.sgn (nth 0 u1 0%Z) -> top = sign_at_one u1 -> zeval u1 (/ 2) <> 0 ->
  Z.ltb (bot * sgn_onehalf u1) 0 = true -> Z.leb (top * sgn_onehalf u1) 0 = true ->
  res P a (a + w) P1 rs (nb_2_case c k half top) /\ covered P a (a + w) (nb_2_case c k half top).
Proof.
  intros D -> -> Hh B1 B2. pose proof u1_0 as U0. pose proof u1_1 as U1. pose proof u1_lead as UL.
  assert (Nu : u1 <> []) by exact (proj1 UL).
  assert (T : Z.eqb (sign_at_one u1) 0 = false).
  { apply Z.eqb_neq. rewrite sgn_at_one. intros N. apply (proj1 (Z.sgn_null_iff _)) in N. apply U1. rewrite zeval_1, N. reflexivity. }
  apply (sgn_onehalf_sign u1 _ Nu) in B1. rewrite <- zeval_0 in B1.
  assert (B3 : zeval u1 1 * zeval u1 (/ 2) < 0).
  { rewrite zeval_1. apply (sgn_onehalf_sign u1 _ Nu). rewrite sgn_at_one in B2, T. apply Z.leb_le in B2. apply Z.eqb_neq in T. apply Z.ltb_lt.
    assert (sgn_onehalf u1 <> 0%Z) by (intros K; apply (sgn_onehalf_zero u1 Nu) in K; contradiction). nia. }
  destruct (ivt u1 0 (/ 2) ltac:(lra) B1) as (z1 & Hz1 & Rz1).
  destruct (ivt u1 (/ 2) 1 ltac:(lra) ltac:(lra)) as (z2 & Hz2 & Rz2).
  assert (Two : forall x, 0 < x < 1 -> root u1 x -> x = z1 \/ x = z2).
  { intros x Hx Rx. destruct (Req_dec x z1) as [|N1]; [auto|]. destruct (Req_dec x z2) as [|N2]; [auto|]. exfalso.
    assert (G : forall l, increasing l -> (forall y, In y l -> y = x \/ y = z1 \/ y = z2) -> (length l <= 2)%nat).
    { intros l Hl Hi. rewrite <- D. apply dvar_upper; [assumption|assumption|]. intros y Hy. destruct (Hi y Hy) as [->|[->| ->]]; split; try assumption; lra. }
    destruct (Rlt_dec x z1).
    - specialize (G [x; z1; z2]). cbn [length increasing] in G. assert (3 <= 2)%nat; [apply G; [lra|]|lia]. intros y [<-|[<-|[<-|[]]]]; auto.
    - destruct (Rlt_dec x z2).
      + specialize (G [z1; x; z2]). cbn [length increasing] in G. assert (3 <= 2)%nat; [apply G; [lra|]|lia]. intros y [<-|[<-|[<-|[]]]]; auto.
      + specialize (G [z1; z2; x]). cbn [length increasing] in G. assert (3 <= 2)%nat; [apply G; [lra|]|lia]. intros y [<-|[<-|[<-|[]]]]; auto. }
  assert (Two' : forall y, a < y < a + w -> peval P1 y = 0 -> y = a + w * z1 \/ y = a + w * z2).
  { intros y Hy Zy. apply (to_unit a w y Hw) in Hy. apply (to_root P1 a w u1 y Hw HI) in Zy. destruct (Two _ Hy Zy) as [<-|<-]; [left|right]; field; lra. }
  assert (O1 : one_root P1 a (a + w / 2)).
  { exists (a + w * z1). split; [split; nra|]. split; [apply (inv_root _ _ _ _ _ HI); assumption|]. intros y Hy Zy. destruct (Two' y) as [|K]; [lra|assumption|assumption|].
    exfalso. nra. }
  assert (O2 : one_root P1 (a + w / 2) (a + w)).
  { exists (a + w * z2). split; [split; nra|]. split; [apply (inv_root _ _ _ _ _ HI); assumption|]. intros y Hy Zy. destruct (Two' y) as [K|]; [lra|assumption| |assumption].
    exfalso. nra. }
  unfold nb_2_case. rewrite T. cbn [negb].
  set (e1 := {| ec := 2 * c; ek := Z.of_nat k + 1; exact := false |}). set (e3 := {| ec := 2 * c + 1; ek := Z.of_nat k + 1; exact := false |}).
  assert (p1 : part e1 a (a + w / 2)) by (split; [reflexivity|]; split; [apply left_lo|apply left_hi]).
  assert (p3 : part e3 (a + w / 2) (a + w)) by (split; [reflexivity|]; split; [apply right_lo|apply right_hi]).
  assert (HIn : forall e, In e ([e1] ++ half_entry c k half ++ [e3]) -> e = e1 \/ In e (half_entry c k half) \/ e = e3).
  { intros e He. rewrite !in_app_iff in He. cbn [In] in He. destruct He as [[He|[]]|[He|[He|[]]]]; auto. }
  assert (HIn' : forall e, In e (half_entry c k half) -> In e ([e1] ++ half_entry c k half ++ [e3])).
  { intros e He. rewrite !in_app_iff. auto. }
  split.
  - apply leaf_res; fold a w; try assumption.
    + intros e x He Hm. destruct (HIn e He) as [->|[K| ->]]; [rewrite (part_mem _ _ _ p1) in Hm; lra| |rewrite (part_mem _ _ _ p3) in Hm; lra].
      apply (half_entries e); assumption.
    + intros e He. destruct (HIn e He) as [->|[K| ->]]; [|apply half_entries; assumption|].
      * eapply part_one; [eassumption|left; lra|assumption].
      * eapply part_one; [eassumption|right; left; lra|assumption].
    + assert (Hm2 : forall e x, In e (half_entry c k half) -> mem e x -> x = a + w / 2).
      { intros e x He Hm. apply half_mem in He. destruct He as (_ & Ex & El). unfold mem in Hm. rewrite Ex in Hm. subst x. exact El. }
      apply FOP_app; [repeat constructor|apply FOP_app|].
      * unfold half_entry. destruct half; repeat constructor.
      * repeat constructor.
      * intros e e' He [<-|[]] x y Hx Hy. rewrite (part_mem _ _ _ p3) in Hy. rewrite (Hm2 e x He Hx). lra.
      * intros e e' [<-|[]] He x y Hx Hy. rewrite (part_mem _ _ _ p1) in Hx. apply in_app_iff in He. destruct He as [He|[<-|[]]].
        -- rewrite (Hm2 e' y He Hy). lra.
        -- rewrite (part_mem _ _ _ p3) in Hy. lra.
    + intros e He Ex. destruct (HIn e He) as [->|[K| ->]].
      * eapply part_ends; [eassumption|left; reflexivity|left; reflexivity|assumption].
      * apply half_mem in K. destruct K as (_ & K & _). congruence.
      * eapply part_ends; [eassumption|right; reflexivity|right; reflexivity|assumption].
  - intros y Hy Zy. destruct (half_cover y Zy) as [N|(e & He & Hm)]; [|exists e; auto].
    destruct (Rlt_dec y (a + w / 2)).
    + exists e1. split; [left; reflexivity|]. rewrite (part_mem _ _ _ p1). lra.
    + exists e3. split; [apply in_or_app; right; apply in_or_app; right; left; reflexivity|]. rewrite (part_mem _ _ _ p3). lra.
Qed.
End Leaf.

(** ** Joining the two halves *)
Section Join.
Variables (P P1 P2 P3 : list R) (c : Z) (k : nat) (half : bool) (rs1 rs2 : list R) (out1 out2 : list entry).
Let a := IZR c * wd k.
Let w := wd k.
Let m := a + w / 2.
Hypothesis HF : half_fact P P1 m half.
Hypothesis Ha : peval P a <> 0.
Hypothesis Hb : peval P (a + w) <> 0.
Hypothesis R1 : res P1 a m P2 rs1 out1.
Let Hw : 0 < w := wd_pos k.

Lemma half_point e x : In e (half_entry c k half) -> mem e x -> x = m.
Proof. intros He Hm. apply half_mem in He. destruct He as (_ & Ex & El). unfold mem in Hm. rewrite Ex in Hm. subst x. exact El. Qed.
Lemma half_zero e : In e (half_entry c k half) -> peval P m = 0 /\ mem e m.
Proof.
  intros He. apply half_mem in He. destruct He as (K & Ex & El). split.
  - clear - HF K. rewrite K in HF. destruct HF as [_ [_ E]]. rewrite E. ring.
  - unfold mem. rewrite Ex. symmetry. exact El.
Qed.
Lemma left_iff y : y <> m -> (peval P y = 0 <-> peval P1 y = 0).
Proof. intros N. eapply half_fact_iff; eassumption. Qed.
Lemma right_iff y : m < y -> (peval P y = 0 <-> peval P2 y = 0).
Proof.
  intros N. rewrite left_iff by lra. rewrite (r_prod _ _ _ _ _ _ R1). split; [|intros ->; ring].
  intros Z0. apply Rmult_integral in Z0. destruct Z0 as [Z0|]; [|assumption]. exfalso. revert Z0. apply prodr_nz.
  intros r Hr. pose proof (res_rs _ _ _ _ _ _ R1 r Hr). lra.
Qed.
Lemma P2_m : peval P2 m <> 0.
Proof. intros N. destruct HF as [K _]. apply K. rewrite (r_prod _ _ _ _ _ _ R1), N. ring. Qed.
Lemma P2_b : peval P2 (a + w) <> 0.
Proof. intros N. apply Hb. apply right_iff; [unfold m; lra|assumption]. Qed.

Lemma join_left_cover : covered P1 a m out1 -> forall y, a < y < m -> peval P y = 0 -> exists e, In e (out1 ++ half_entry c k half) /\ mem e y.
Proof. intros C y Hy Z0. destruct (C y Hy) as (e & He & Hm); [apply left_iff; [lra|assumption]|]. exists e. split; [apply in_or_app; auto|assumption]. Qed.
Lemma join_mid_cover : peval P m = 0 -> exists e, In e (out1 ++ half_entry c k half) /\ mem e m.
Proof.
  intros Z0. pose proof (half_fact_mid _ _ _ _ HF Z0) as ->. destruct (half_in c k) as (e & He & Ex & El). exists e. split; [apply in_or_app; auto|].
  unfold mem. rewrite Ex, El. reflexivity.
Qed.

Hypothesis R2 : res P2 m (a + w) P3 rs2 out2.
Let out := (out1 ++ half_entry c k half) ++ out2.
Let rs := rs1 ++ half_list half m ++ rs2.

Lemma in_out e : In e out <-> In e out1 \/ In e (half_entry c k half) \/ In e out2.
Proof. unfold out. rewrite !in_app_iff. tauto. Qed.

Lemma join_res : res P a (a + w) P3 rs out.
Proof.
  pose proof (res_rs _ _ _ _ _ _ R1) as I1. pose proof (res_rs _ _ _ _ _ _ R2) as I2.
  pose proof P2_m as N2. destruct HF as [N1 HF'].
  assert (P3m : peval P3 m <> 0) by (intros N; apply N2; rewrite (r_prod _ _ _ _ _ _ R2), N; ring).
  split.
  - intros y. unfold rs. rewrite !prodr_app. 
    replace (peval P y) with (prodr (half_list half m) y * peval P1 y).
    + rewrite (r_prod _ _ _ _ _ _ R1), (r_prod _ _ _ _ _ _ R2). ring.
    + destruct half; cbn [half_list prodr]; [rewrite (proj2 HF'); ring|rewrite HF'; ring].
  - unfold rs. rewrite !app_length. pose proof (r_len _ _ _ _ _ _ R1). pose proof (r_len _ _ _ _ _ _ R2).
    destruct half; cbn [half_list length]; [pose proof (proj1 HF')|rewrite <- HF']; lia.
  - apply (r_len2 _ _ _ _ _ _ R2).
  - intros r Hr. unfold rs in Hr. rewrite !in_app_iff in Hr. destruct Hr as [Hr|[Hr|Hr]].
    + destruct (r_ex _ _ _ _ _ _ R1 r Hr) as (e & He & E). exists e. rewrite in_out. auto.
    + unfold half_list in Hr. destruct half eqn:Eh; [|destruct Hr]. destruct Hr as [<-|[]]. destruct (half_in c k) as (e & He & E). exists e.
      unfold out. rewrite !in_app_iff. split; [left; right; assumption|exact E].
    + destruct (r_ex _ _ _ _ _ _ R2 r Hr) as (e & He & E). exists e. rewrite in_out. auto.
  - intros r Hr. unfold rs in Hr. rewrite !in_app_iff in Hr. destruct Hr as [Hr|[Hr|Hr]].
    + intros N. apply (r_nz _ _ _ _ _ _ R1 r Hr). rewrite (r_prod _ _ _ _ _ _ R2), N. ring.
    + unfold half_list in Hr. destruct half; [|destruct Hr]. destruct Hr as [<-|[]]. assumption.
    + apply (r_nz _ _ _ _ _ _ R2 r Hr).
  - unfold rs. assert (ND : forall (l1 l2 : list R), NoDup l1 -> NoDup l2 -> (forall x y, In x l1 -> In y l2 -> x < y) -> NoDup (l1 ++ l2)).
    { induction l1 as [|x l1 IH]; intros l2 H1 H2 H; [assumption|]. cbn [app]. inversion_clear H1. constructor.
      - rewrite in_app_iff. intros [K|K]; [contradiction|]. specialize (H x x (or_introl eq_refl) K). lra.
      - apply IH; [assumption|assumption|]. intros u v Hu Hv. apply H; [right; assumption|assumption]. }
    apply ND; [apply (r_nodup _ _ _ _ _ _ R1)|apply ND|].
    + destruct half; cbn [half_list]; repeat constructor; intros [].
    + apply (r_nodup _ _ _ _ _ _ R2).
    + intros x y Hx Hy. apply I2 in Hy. unfold half_list in Hx. destruct half; [|destruct Hx]. destruct Hx as [<-|[]]. lra.
    + intros x y Hx Hy. apply I1 in Hx. apply in_app_iff in Hy. destruct Hy as [Hy|Hy]; [|apply I2 in Hy; lra].
      unfold half_list in Hy. destruct half; [|destruct Hy]. destruct Hy as [<-|[]]. lra.
  - intros e x He Hm. apply in_out in He. destruct He as [He|[He|He]].
    + pose proof (r_in _ _ _ _ _ _ R1 e x He Hm). unfold m in *. lra.
    + rewrite (half_point e x He Hm). unfold m. lra.
    + pose proof (r_in _ _ _ _ _ _ R2 e x He Hm). unfold m in *. lra.
  - intros e He. apply in_out in He. destruct He as [He|[He|He]].
    + destruct (r_one _ _ _ _ _ _ R1 e He) as (x & Hx & Z0 & U). exists x. split; [assumption|].
      pose proof (r_in _ _ _ _ _ _ R1 e x He Hx). split; [apply left_iff; [lra|assumption]|].
      intros y Hy Zy. apply U; [assumption|]. pose proof (r_in _ _ _ _ _ _ R1 e y He Hy). apply left_iff; [lra|assumption].
    + destruct (half_zero e He) as [Z0 Hm]. exists m. split; [assumption|]. split; [assumption|]. intros y Hy _. apply (half_point e y He Hy).
    + destruct (r_one _ _ _ _ _ _ R2 e He) as (x & Hx & Z0 & U). exists x. split; [assumption|].
      pose proof (r_in _ _ _ _ _ _ R2 e x He Hx). split; [apply right_iff; [lra|assumption]|].
      intros y Hy Zy. apply U; [assumption|]. pose proof (r_in _ _ _ _ _ _ R2 e y He Hy). apply right_iff; [lra|assumption].
  - unfold out. apply FOP_app; [apply FOP_app| |].
    + apply (r_ord _ _ _ _ _ _ R1).
    + unfold half_entry. destruct half; repeat constructor.
    + intros e e' He He' x y Hx Hy. rewrite (half_point e' y He' Hy). apply (r_in _ _ _ _ _ _ R1 e x He Hx).
    + apply (r_ord _ _ _ _ _ _ R2).
    + intros e e' He He' x y Hx Hy. pose proof (r_in _ _ _ _ _ _ R2 e' y He' Hy). apply in_app_iff in He. destruct He as [He|He].
      * pose proof (r_in _ _ _ _ _ _ R1 e x He Hx). lra.
      * rewrite (half_point e x He Hx). lra.
  - intros e He Ex z Hz.
    assert (Mid : peval P m = 0 -> exists e', In e' out /\ exact e' = true /\ lo e' = m).
    { intros Z0. destruct join_mid_cover as (e' & He' & Hm'); [assumption|]. apply in_app_iff in He'. destruct He' as [He'|He'].
      - exfalso. pose proof (r_in _ _ _ _ _ _ R1 e' m He' Hm'). lra.
      - exists e'. rewrite in_out. split; [auto|]. apply half_mem in He'. destruct He' as (_ & Ex' & El). split; [assumption|exact El]. }
    apply in_out in He. destruct He as [He|[He|He]].
    + destruct (r_ends _ _ _ _ _ _ R1 e He Ex z Hz) as [B F]. split; [unfold m in B; lra|]. intros Z0.
      destruct (Req_dec z m) as [->|N]; [apply Mid; assumption|]. destruct F as (e' & He' & E'); [apply left_iff; assumption|]. exists e'. rewrite in_out. auto.
    + apply half_mem in He. destruct He as (_ & K & _). congruence.
    + destruct (r_ends _ _ _ _ _ _ R2 e He Ex z Hz) as [B F]. split; [unfold m in B; lra|]. intros Z0.
      destruct (Req_dec z m) as [->|N]; [apply Mid; assumption|]. destruct F as (e' & He' & E'); [apply right_iff; [lra|assumption]|]. exists e'. rewrite in_out. auto.
Qed.

Lemma join_cover : covered P1 a m out1 -> forall y, a < y -> (m < y -> peval P2 y = 0 -> exists e, In e out2 /\ mem e y) -> peval P y = 0 -> exists e, In e out /\ mem e y.
Proof.
  intros C y Hy C2 Z0. unfold out. destruct (Rtotal_order y m) as [L|[->|L]].
  - destruct (join_left_cover C y ltac:(lra) Z0) as (e & He & Hm). exists e. split; [apply in_or_app; auto|assumption].
  - destruct (join_mid_cover Z0) as (e & He & Hm). exists e. split; [apply in_or_app; auto|assumption].
  - destruct (C2 L) as (e & He & Hm); [apply right_iff; assumption|]. exists e. split; [apply in_or_app; auto|assumption].
Qed.
End Join.

(** The left half only, when nothing can be found on the right. *)
Lemma join_left_res P P1 P2 c k half rs1 out1 : half_fact P P1 (IZR c * wd k + wd k / 2) half ->
  res P1 (IZR c * wd k) (IZR c * wd k + wd k / 2) P2 rs1 out1 ->
  res P (IZR c * wd k) (IZR c * wd k + wd k) P2 (rs1 ++ half_list half (IZR c * wd k + wd k / 2) ++ []) ((out1 ++ half_entry c k half) ++ []).
Proof.
  intros HF R1. assert (N2 : peval P2 (IZR c * wd k + wd k / 2) <> 0).
  { intros N. destruct HF as [K _]. apply K. rewrite (r_prod _ _ _ _ _ _ R1), N. ring. }
  apply (join_res P P1 P2 P2 c k half rs1 [] out1 []); [assumption|assumption|].
  split.
  - intros y. cbn [prodr]. ring.
  - reflexivity.
  - apply (r_len2 _ _ _ _ _ _ R1).
  - intros r [].
  - intros r [].
  - constructor.
  - intros e x [].
  - intros e [].
  - constructor.
  - intros e [].
Qed.

(** ** The recursion *)
Definition node_ok (P : list R) (c : Z) (k : nat) (u : list Z) (f : flags) : Prop :=
  (2 <= length P)%nat /\ inv P (IZR c * wd k) (wd k) u /\ flags_ok f (length P - 1) /\
  peval P (IZR c * wd k) <> 0 /\ peval P (IZR c * wd k + wd k) <> 0.

Definition result_ok (P : list R) (c : Z) (k : nat) (r : list Z * flags * option nat * list entry) : Prop :=
  let '(u', f', ok, out) := r in
  exists P' rs, res P (IZR c * wd k) (IZR c * wd k + wd k) P' rs out /\ flags_ok f' (length P' - 1) /\
  match ok with
  | Some k' => (k <= k')%nat /\ inv P' (IZR c * wd k + wd k - wd k') (wd k') u' /\ covered P (IZR c * wd k) (IZR c * wd k + wd k) out
  | None => forall y, IZR c * wd k < y -> peval P y = 0 -> exists e, In e out /\ mem e y
  end.

Lemma child_left c k : IZR (2 * c) * wd (S k) = IZR c * wd k.
Proof. rewrite wd_S, mult_IZR. field. Qed.
Lemma child_right c k : IZR (2 * c + 1) * wd (S k) = IZR c * wd k + wd k / 2.
Proof. rewrite wd_S, plus_IZR, mult_IZR. field. Qed.
Lemma p2_m1 : p2 (-1) = / 2.
Proof. change (-1)%Z with (- (1))%Z. rewrite p2_inv. unfold p2. rewrite powerRZ_1. reflexivity. Qed.
Lemma getz_0 u : lead_ok u -> getz u 0 = Some (nth 0 u 0%Z).
Proof. intros [H _]. destruct u; [contradiction|reflexivity]. Qed.

(** After the left half: shift by one and back to the width of the right half. *)
Lemma to_right P a u f k ok r : (2 <= length P)%nat -> (k <= ok)%nat -> flags_ok f (length P - 1) ->
  inv P (a - wd ok) (wd ok) u ->
  (let? v := taylorshift1_dac u (length u - 1) (tbl f) (pwx f) in
   if (k <? ok)%nat then rescale_normalize v (Z.of_nat ok - Z.of_nat k) else Some v) = r ->
  exists v, r = Some v /\ inv P a (wd k) v.
Proof.
  intros HP Hk F I <-. pose proof I as (L & _). rewrite (dac_flags u (length u - 1) f) by (rewrite ?L; try lia; assumption). cbn [obind].
  apply tsh_inv in I. replace (a - wd ok + wd ok) with a in I by ring.
  destruct (Nat.ltb_spec k ok) as [K|K].
  - destruct (rescale_inv _ _ _ _ (Z.of_nat ok - Z.of_nat k) I) as (v & Ev & Iv). exists v. split; [assumption|].
    replace (wd k) with (wd ok * p2 (Z.of_nat ok - Z.of_nat k)); [assumption|]. rewrite !wd_p2, <- p2_add. f_equal. ring.
  - assert (ok = k) by lia. subst ok. eauto.
Qed.

Theorem bisect_sound : forall fuel P u f c k r, node_ok P c k u f -> bisect fuel u f c k = Some r -> result_ok P c k r.
Proof.
  induction fuel as [|fuel IH]; intros P u f c k r (HP & I & F & Ha & Hb) H; [discriminate|].
  cbn [bisect] in H. pose proof (wd_pos k) as Hw. pose proof I as (Lu & UL & _).
  assert (U0 : zeval u 0 <> 0). { intros N. apply Ha. apply (inv_root _ _ _ _ _ I) in N. rewrite Rmult_0_r, Rplus_0_r in N. assumption. }
  rewrite (is_zero_root_ok u c k UL U0) in H. cbn [obind] in H.
  destruct (manage_half u f) as [mr|] eqn:Em; [|discriminate]. cbn [obind] in H.
  destruct (manage_half_ok P _ _ u f mr HP Hw I F Em) as (P1 & u1 & f1 & half & -> & HP1 & I1 & F1 & HF & Hh). cbv beta iota in H.
  pose proof I1 as (L1 & UL1 & _).
  pose proof (u1_0 P P1 c k u1 half I1 HF Ha) as V0. pose proof (u1_1 P P1 c k u1 half I1 HF Hb) as V1.
  assert (N0 : nth 0 u1 0%Z <> 0%Z) by (intros N; apply V0; rewrite zeval_0, N; reflexivity).
  assert (Ld : length u1 = S (length u1 - 1)) by lia.
  rewrite (is_zero_ok u1 (length u1 - 1)) in H; [|assumption|lia|apply (lead_ok_nth u1 (length u1 - 1) Ld); assumption]. cbn [obind] in H.
  set (w := wd k) in *. set (a := IZR c * w) in *. cbn [app] in H.
  destruct (Nat.eqb_spec (Nat.min 1 (variations u1)) 0) as [V|V].
  { injection H as <-. assert (Np : forall y, a < y -> peval P1 y <> 0).
    { intros y Hy Zy. apply (to_root P1 a w u1 y Hw I1) in Zy. revert Zy. apply no_positive; [assumption|lia|]. apply Rmult_lt_0_compat; [lra|apply Rinv_0_lt_compat; assumption]. }
    exists P1, (half_list half (a + w / 2)). split; [|split; [assumption|]].
    - apply (leaf_zero P P1 c k half); try assumption. intros y Hy. apply Np. unfold a, w in *. lra.
    - apply (leaf_zero_cover' P P1 c k half); assumption. }
  rewrite (descartes_flags u1 (length u1 - 1) f1) in H; [|assumption|lia|rewrite L1; assumption|assumption]. cbn [obind] in H.
  rewrite (getz_0 u1 UL1) in H. cbn [obind] in H.
  assert (Ik : inv P1 (a + w - w) w u1) by (replace (a + w - w) with a by ring; assumption).
  destruct (Nat.eqb_spec (Nat.min 3 (dvar u1)) 0) as [D0|D0].
  { injection H as <-. assert (Np : forall y, a < y < a + w -> peval P1 y <> 0).
    { intros y Hy Zy. apply (to_root P1 a w u1 y Hw I1) in Zy. apply (to_unit a w y Hw) in Hy. revert Zy. apply dvar_zero; [assumption|lia|assumption]. }
    exists P1, (half_list half (a + w / 2)). split; [|split; [assumption|split; [lia|split; [exact Ik|]]]].
    - apply (leaf_zero P P1 c k half); assumption.
    - apply (leaf_zero_cover P P1 c k half); assumption. }
  destruct (Nat.eqb_spec (Nat.min 3 (dvar u1)) 1) as [D1|D1].
  { injection H as <-. destruct (leaf_one P P1 c k u1 half HP1 I1 HF Ha Hb _ _ ltac:(lia) eq_refl eq_refl Hh) as [Rl Cl].
    exists P1, (half_list half (a + w / 2)). split; [exact Rl|split; [assumption|split; [lia|split; [exact Ik|exact Cl]]]]. }
  destruct ((Nat.min 3 (dvar u1) =? 2)%nat && ((Z.sgn (nth 0 u1 0%Z) * sgn_onehalf u1 <? 0)%Z && (sign_at_one u1 * sgn_onehalf u1 <=? 0)%Z)) eqn:T2.
  { apply andb_true_iff in T2. destruct T2 as [D2 T2]. apply andb_true_iff in T2. destruct T2 as [T2 T3]. apply Nat.eqb_eq in D2.
    injection H as <-. destruct (leaf_two P P1 c k u1 half HP1 I1 HF Ha Hb _ _ ltac:(lia) eq_refl eq_refl Hh T2 T3) as [Rl Cl].
    exists P1, (half_list half (a + w / 2)). split; [exact Rl|split; [assumption|split; [lia|split; [exact Ik|exact Cl]]]]. }
  destruct (rescale_inv _ _ _ _ (-1) I1) as (u2 & E2 & I2). rewrite E2 in H. cbn [obind] in H. rewrite p2_m1 in I2.
  assert (W2 : w * / 2 = w / 2) by reflexivity. rewrite W2 in I2. pose proof HF as [Hm _].
  destruct (bisect fuel u2 f1 (2 * c) (S k)) as [r1|] eqn:B1; [|discriminate]. cbn [obind] in H.
  assert (O1 : node_ok P1 (2 * c) (S k) u2 f1).
  { unfold node_ok. rewrite child_left, wd_S. fold w; fold a. split; [assumption|]. split; [assumption|]. split; [assumption|].
    split; [eapply half_fact_nz; eassumption|assumption]. }
  pose proof (IH _ _ _ _ _ _ O1 B1) as G1. destruct r1 as [[[u3 f3] ok1] out1]. unfold result_ok in G1. rewrite child_left, wd_S in G1. fold w in G1; fold a in G1.
  destruct G1 as (P2 & rs1 & R1 & F3 & C1). pose proof (r_len2 _ _ _ _ _ _ R1) as HP2.
  destruct ok1 as [ok1|].
  - destruct C1 as (Hk & I3 & C1).
    assert (Hlen : length u3 = length P2) by exact (proj1 I3).
    destruct (let? v := taylorshift1_dac u3 (length u3 - 1) (tbl f3) (pwx f3) in
              if (S k <? ok1)%nat then rescale_normalize v (Z.of_nat ok1 - Z.of_nat (S k)) else Some v) as [v|] eqn:Ev.
    2:{ destruct (to_right P2 (a + w / 2) u3 f3 (S k) ok1 _ HP2 Hk F3 I3 Ev) as (v & Kv & _). discriminate. }
    destruct (to_right P2 (a + w / 2) u3 f3 (S k) ok1 _ HP2 Hk F3 I3 Ev) as (v' & Kv & I4). injection Kv as <-.
    destruct (taylorshift1_dac u3 (length u3 - 1) (tbl f3) (pwx f3)) as [v0|]; [|discriminate]. cbn [obind] in Ev, H. rewrite Ev in H. cbn [obind] in H.
    destruct (bisect fuel v f3 (2 * c + 1) (S k)) as [r2|] eqn:B2; [|discriminate]. cbn [obind] in H. destruct r2 as [[[u5 f5] ok2] out2]. injection H as <-.
    assert (O2 : node_ok P2 (2 * c + 1) (S k) v f3).
    { unfold node_ok. rewrite child_right, wd_S. fold w; fold a. split; [assumption|]. split; [rewrite wd_S in I4; exact I4|]. split; [assumption|].
      split; [apply (P2_m P P1 P2 c k half rs1 out1 HF R1)|]. replace (a + w / 2 + w / 2) with (a + w) by field. apply (P2_b P P1 P2 c k half rs1 out1 HF Hb R1). }
    pose proof (IH _ _ _ _ _ _ O2 B2) as G2. unfold result_ok in G2. rewrite child_right, wd_S in G2. fold w in G2; fold a in G2.
    replace (a + w / 2 + w / 2) with (a + w) in G2 by field.
    destruct G2 as (P3 & rs2 & R2 & F5 & C2).
    exists P3, (rs1 ++ half_list half (a + w / 2) ++ rs2). split; [apply (join_res P P1 P2 P3 c k half rs1 rs2 out1 out2); assumption|]. split; [assumption|].
    destruct ok2 as [ok2|].
    + destruct C2 as (Hk2 & I5 & C2). split; [lia|]. split; [assumption|]. intros y Hy Zy.
      apply (join_cover P P1 P2 c k half rs1 out1 out2 HF R1 C1 y); [unfold a, w in *; lra| |assumption]. intros Hy2. apply C2. unfold a, w in *. lra.
    + intros y Hy Zy. apply (join_cover P P1 P2 c k half rs1 out1 out2 HF R1 C1 y); [assumption| |assumption]. intros Hy2. apply C2. assumption.
  - injection H as <-. exists P2, (rs1 ++ half_list half (a + w / 2) ++ []). split.
    { rewrite <- (app_nil_r (out1 ++ half_entry c k half)). apply (join_left_res P P1 P2 c k half rs1 out1); assumption. }
    split; [assumption|]. intros y Hy Zy. destruct (Req_dec y (a + w / 2)) as [->|N].
    + apply (join_mid_cover P P1 c k half out1 HF). assumption.
    + destruct (C1 y Hy) as (e & He & Hm'); [apply (half_fact_iff P P1 (a + w / 2) half y HF N); assumption|]. exists e. split; [apply in_or_app; auto|assumption].
Qed.
