(** Proofs about interval refinement: one step and the QIR loop on one interval. *)
From Coq Require Import ZArith List Arith Bool Lia Lra Reals.
From Verif Require Import ModInvModel PolySpec PolyProofs TaylorModel TaylorProofs DescModel IsolSpec IsolModel IsolProofs IsolBisProofs IsolBoundProofs
  EvalModel EvalProofs RefineModel.
Import ListNotations.
Open Scope R_scope.

(** ** Division by a linear factor *)
Fixpoint divk (k : Z) (l : list Z) (prev c : Z) : Prop :=
  match l with [] => True | a :: l' => (2 ^ k | prev)%Z /\ divk k l' (a + prev / 2 ^ k * c)%Z c end.
Lemma div_pow_IZR k p : (0 <= k)%Z -> (2 ^ k | p)%Z -> IZR (p / 2 ^ k) = IZR p * p2 (- k).
Proof.
  intros Hk [q ->]. assert (0 < 2 ^ k)%Z by (apply Z.pow_pos_nonneg; lia). rewrite Z.div_mul by lia. rewrite mult_IZR, pow2_IZR by assumption.
  rewrite Rmult_assoc, <- p2_add. replace (k + - k)%Z with 0%Z by lia. rewrite p2_0. ring.
Qed.
Lemma quo_ck_length l : forall prev c k, length (quo_ck l prev c k) = length l.
Proof. induction l as [|a l IH]; intros; cbn [quo_ck length]; [reflexivity|]. rewrite IH. reflexivity. Qed.
Lemma quo_ck_eval k c a0 l : (0 <= k)%Z -> forall prev acc x, divk k l prev c ->
  horner (l ++ [a0]) ((x - IZR c * p2 (- k)) * acc + IZR prev) x =
  (x - IZR c * p2 (- k)) * horner (quo_ck l prev c k) (acc * x + IZR prev) x + (IZR a0 + IZR (last (quo_ck l prev c k) prev) * (IZR c * p2 (- k))).
Proof.
  intros Hk. induction l as [|a l IH]; intros prev acc x H; cbn [app quo_ck horner]; [cbn [last]; ring|].
  destruct H as [H1 H2]. rewrite last_skip. specialize (IH (a + prev / 2 ^ k * c)%Z (acc * x + IZR prev) x H2).
  rewrite <- IH. f_equal. rewrite plus_IZR, mult_IZR, div_pow_IZR by assumption. ring.
Qed.
Lemma divk_ok k c l : (0 <= k)%Z -> forall prev, (2 ^ (Z.of_nat (length l) * k) | prev)%Z -> Forall (fun a => (2 ^ (Z.of_nat (length l) * k) | a)%Z) l -> divk k l prev c.
Proof.
  intros Hk. induction l as [|a l IH]; intros prev Hp Hl; cbn [divk]; [exact I|]. cbn [length] in *.
  replace (Z.of_nat (S (length l)) * k)%Z with (Z.of_nat (length l) * k + k)%Z in * by lia.
  assert (0 <= Z.of_nat (length l) * k)%Z by nia. rewrite Z.pow_add_r in * by lia. assert (0 < 2 ^ k)%Z by (apply Z.pow_pos_nonneg; lia).
  destruct Hp as [q ->].
  replace (q * (2 ^ (Z.of_nat (length l) * k) * 2 ^ k))%Z with (q * 2 ^ (Z.of_nat (length l) * k) * 2 ^ k)%Z by ring. rewrite Z.div_mul by lia.
  split; [exists (q * 2 ^ (Z.of_nat (length l) * k))%Z; ring|]. inversion_clear Hl as [|? ? Ha Hl']. apply IH.
  - apply Z.divide_add_r; [|exists (q * c)%Z; ring]. destruct Ha as [t ->]. exists (t * 2 ^ k)%Z. ring.
  - eapply Forall_impl; [|exact Hl']. cbv beta. intros b [t ->]. exists (t * 2 ^ k)%Z. ring.
Qed.

Definition quot_by (u : list Z) (r : R) (q : list Z) : Prop :=
  length u = S (length q) /\ lead_ok q /\ exists l, l <> 0 /\ forall x, l * zeval u x = (x - r) * zeval q x.

Lemma quotient_ok u c k : (0 <= k)%Z -> lead_ok u -> root u (IZR c * p2 (- k)) -> exists q, quotient u c k = Some q /\ quot_by u (IZR c * p2 (- k)) q.
Proof.
  intros Hk [H2 H3] Hr. set (r := IZR c * p2 (- k)) in *. destruct u as [|a0 t]; [contradiction|].
  destruct t as [|t1 t2]. { exfalso. cbn in H3. unfold root in Hr. rewrite zeval_cons, zeval_nil in Hr. apply H3, eq_IZR. lra. }
  set (t := t1 :: t2) in *. assert (Tn : t <> []) by discriminate. clearbody t. clear t1 t2.
  destruct (exists_last Tn) as (t0 & ld & Et).
  assert (Hld : ld <> 0%Z). { rewrite Et in H3. change (a0 :: t0 ++ [ld]) with ((a0 :: t0) ++ [ld]) in H3. rewrite last_last in H3. assumption. }
  unfold quotient. cbn [tl]. set (s := (2 ^ ((Z.of_nat (length (a0 :: t)) - 2) * k))%Z).
  assert (Er : rev (map (fun a => (a * s)%Z) t) = (ld * s)%Z :: rev (map (fun a => (a * s)%Z) t0)).
  { rewrite Et, map_app, rev_app_distr. reflexivity. }
  rewrite Er. set (rest := rev (map (fun a => (a * s)%Z) t0)) in *.
  assert (Lt : length t = S (length t0)) by (rewrite Et, app_length; cbn; lia).
  assert (Hs : s = (2 ^ (Z.of_nat (length rest) * k))%Z).
  { unfold s, rest. rewrite rev_length, map_length. f_equal. cbn [length]. lia. }
  assert (S1 : (0 < s)%Z) by (rewrite Hs; apply Z.pow_pos_nonneg; nia).
  assert (S0 : 0 < IZR s) by (apply IZR_lt; assumption).
  set (q := rev ((ld * s)%Z :: quo_ck rest (ld * s) c k)).
  assert (Dv : divk k rest (ld * s)%Z c).
  { apply divk_ok; [assumption| |]; rewrite <- Hs; [exists ld; ring|]. unfold rest. apply Forall_forall. intros b Hb. rewrite <- in_rev in Hb.
    apply in_map_iff in Hb. destruct Hb as (b0 & <- & _). exists b0. ring. }
  set (rem := IZR (a0 * s) + IZR (last (quo_ck rest (ld * s) c k) (ld * s)%Z) * r).
  assert (Ev : forall x, IZR s * zeval (a0 :: t) x = (x - r) * zeval q x + rem).
  { intros x. pose proof (quo_ck_eval k c (a0 * s) rest Hk (ld * s) 0 x Dv) as K. fold r in K.
    replace ((x - r) * 0 + IZR (ld * s)) with (IZR (ld * s)) in K by ring. replace (0 * x + IZR (ld * s)) with (IZR (ld * s)) in K by ring.
    rewrite (horner_rev (quo_ck rest (ld * s) c k)) in K. fold rem in K.
    replace (zeval q x) with (zeval (rev (quo_ck rest (ld * s) c k)) x + x ^ length (quo_ck rest (ld * s) c k) * IZR (ld * s)).
    2:{ unfold q. cbn [rev]. rewrite zeval_app, rev_length, zeval_cons, zeval_nil. ring. }
    rewrite <- K. rewrite horner_rev. rewrite <- zeval_scale. unfold rest. rewrite rev_app_distr, rev_involutive. cbn [rev app map].
    rewrite Et, map_app. cbn [map]. rewrite !zeval_cons, zeval_app, zeval_cons, zeval_nil, app_length, rev_length, map_length. cbn [length].
    replace (length t0 + 1)%nat with (S (length t0)) by lia. cbn [pow]. ring. }
  assert (Rm : rem = 0). { specialize (Ev r). unfold root in Hr. rewrite Hr in Ev. lra. }
  destruct (remove_content_ok q) as (d & v & E & Hv & Eq). rewrite E. cbn [obind snd]. exists v. split; [reflexivity|].
  assert (Lq : length q = length t). { unfold q. rewrite rev_length. cbn [length]. rewrite quo_ck_length. unfold rest. rewrite rev_length, map_length. lia. }
  split; [cbn [length]; lia|]. split.
  - split; [intros ->; rewrite Lq, Lt in Hv; discriminate|]. intros N. assert (last q 0%Z = 0%Z).
    { rewrite Eq. clear - N. induction v as [|b v IH]; [reflexivity|]. destruct v as [|b' v]; [cbn in *; subst; reflexivity|]. cbn [map]. change (last (b' :: v) 0%Z = 0%Z) in N.
      specialize (IH N). exact IH. }
    unfold q in H. cbn [rev] in H. rewrite last_last in H. apply Z.mul_eq_0 in H. lia.
  - exists (IZR s * / IZR (2 ^ Z.of_nat d)). assert (D0 : 0 < IZR (2 ^ Z.of_nat d)) by (apply IZR_lt, Z.pow_pos_nonneg; lia).
    split; [apply Rmult_integral_contrapositive; split; [lra|apply Rinv_neq_0_compat; lra]|]. intros x. 
    assert (Eqx : zeval q x = IZR (2 ^ Z.of_nat d) * zeval v x). { rewrite Eq at 1. rewrite <- zeval_scale. reflexivity. }
    specialize (Ev x). rewrite Rm, Eqx in Ev. apply (Rmult_eq_reg_l (IZR (2 ^ Z.of_nat d))); [|lra].
    transitivity (IZR s * zeval (a0 :: t) x); [field; lra|]. rewrite Ev. ring.
Qed.

(** ** One step, in terms of the signs at the points base, base + unit, ..., base + 2^N unit *)
Lemma quot_range va vb M : (va * vb < 0)%Z -> (0 < M)%Z -> (0 <= Z.quot (va * M) (va - vb) < M)%Z.
Proof.
  intros H HM. assert (P : forall a b, (0 < a)%Z -> (b < 0)%Z -> (0 <= Z.quot (a * M) (a - b) < M)%Z).
  { intros a b Ha Hb. assert (0 < a * M)%Z by (apply Z.mul_pos_pos; assumption). assert (b * M < 0)%Z by (apply Z.mul_neg_pos; assumption).
    rewrite Z.quot_div_nonneg by lia. split; [apply Z.div_pos; lia|]. apply Z.div_lt_upper_bound; lia. }
  destruct (Z_lt_le_dec 0 va) as [A|A].
  - apply P; [assumption|]. destruct vb; lia.
  - specialize (P (- va) (- vb))%Z. replace (- va * M)%Z with (- (va * M))%Z in P by ring. replace (- va - - vb)%Z with (- (va - vb))%Z in P by ring.
    assert (va - vb <> 0)%Z by (intros K; replace vb with va in H by lia; nia). assert (va < 0)%Z by (destruct (Z.eq_dec va 0) as [->|]; lia). assert (0 < vb)%Z by nia.
    rewrite Z.quot_opp_opp in P by lia. apply P; lia.
Qed.

Section Core.
  Variables (u : list Z) (rt : interval) (base unit e newk : Z).
  Definition ev (j : Z) : Z := eval_2exp u (base + j * unit) e.
  Inductive core_post (N va vb : Z) (s : rstate) (ok : bool) : Prop :=
  | cp_keep : s = {| rpol := u; rint := rt; rva := va; rvb := vb |} -> ok = false -> N <> 2%Z -> core_post N va vb s ok
  | cp_sub j : (0 <= j < 2 ^ N)%Z -> rpol s = u -> rint s = {| numer := base + j * unit; ik := newk; isexact := false |} ->
      Z.sgn (ev j) = Z.sgn (rva s) -> Z.sgn (ev (j + 1)) = Z.sgn (rvb s) -> (rva s * rvb s < 0)%Z -> core_post N va vb s ok
  | cp_exact j q : (0 < j < 2 ^ N)%Z -> ev j = 0%Z -> quotient u (base + j * unit) (if (0 <=? newk)%Z then newk else 0%Z) = Some q -> rpol s = q ->
      rint s = {| numer := base + j * unit; ik := newk; isexact := true |} -> Z.sgn (rva s) <> Z.sgn (rvb s) -> core_post N va vb s ok.
  Hypothesis quo : forall j, ev j = 0%Z -> exists q, quotient u (base + j * unit) (if (0 <=? newk)%Z then newk else 0%Z) = Some q.

  Lemma sgn_opp a b : Z.sgn a <> 0%Z -> Z.sgn b <> 0%Z -> Z.sgn a <> Z.sgn b -> (a * b < 0)%Z.
  Proof. intros. destruct a, b; cbn in *; try lia; try congruence. Qed.
  Lemma make_exact_ok j va vb N v1 v2 : (0 < j < 2 ^ N)%Z -> ev j = 0%Z -> Z.sgn v1 <> Z.sgn v2 ->
    exists s, make_exact u (base + j * unit) newk v1 v2 = Some s /\ forall ok, core_post N va vb s ok.
  Proof.
    intros H1 H2 H3. destruct (quo j H2) as (q & E). unfold make_exact. rewrite E. cbn [obind]. eexists. split; [reflexivity|]. intros ok.
    eapply (cp_exact N va vb _ ok j q); eauto.
  Qed.
  Lemma make_sub_ok j va vb N v1 v2 : (0 <= j < 2 ^ N)%Z -> Z.sgn (ev j) = Z.sgn v1 -> Z.sgn (ev (j + 1)) = Z.sgn v2 -> (v1 * v2 < 0)%Z ->
    exists s, make_sub u (base + j * unit) newk v1 v2 = Some s /\ forall ok, core_post N va vb s ok.
  Proof. intros. eexists. split; [reflexivity|]. intros ok. eapply (cp_sub N va vb _ ok j); cbn; auto. Qed.

  Ltac zl := repeat match goal with H : context [Z.sgn _] |- _ => clear H end; lia.
  Lemma right_loop_ok va vb N : Z.sgn (ev (2 ^ N)) <> Z.sgn va -> Z.sgn (ev (2 ^ N)) <> 0%Z -> Z.sgn va <> 0%Z -> forall fuel j v1, (0 <= j)%Z -> (j + 1 < 2 ^ N)%Z -> (2 ^ N - j < Z.of_nat fuel)%Z ->
    Z.sgn (ev (j + 1)) = Z.sgn va ->
    exists s, right_loop fuel u (base + j * unit) (base + j * unit + unit) v1 (ev (j + 1)) unit e newk = Some s /\ forall ok, core_post N va vb s ok.
  Proof.
    intros Hn Hn0 Ha. induction fuel as [|fuel IH]; intros j v1 H0 H1 H2 H3; [zl|]. cbn [right_loop].
    replace (base + j * unit + unit)%Z with (base + (j + 1) * unit)%Z by ring. replace (base + (j + 1) * unit + unit)%Z with (base + (j + 1 + 1) * unit)%Z by ring. fold (ev (j + 1 + 1)).
    destruct (Z.eqb_spec (Z.sgn (ev (j + 1 + 1))) 0) as [E|E].
    - apply make_exact_ok; [|exact (proj1 (Z.sgn_null_iff _) E)|congruence]. split; [zl|]. destruct (Z.eq_dec (j + 1 + 1) (2 ^ N)) as [K|K]; [rewrite K in E; contradiction|zl].
    - destruct (Z.eqb_spec (Z.sgn (ev (j + 1))) (Z.sgn (ev (j + 1 + 1)))) as [E'|E']; cbn [negb].
      + replace (base + (j + 1 + 1) * unit)%Z with (base + (j + 1) * unit + unit)%Z by ring. apply IH; try zl; try congruence.
        destruct (Z.eq_dec (j + 1 + 1) (2 ^ N)) as [K|K]; [rewrite K in E'; congruence|zl].
      + apply make_sub_ok; [zl|reflexivity|reflexivity|]. apply sgn_opp; congruence.
  Qed.
  Lemma left_loop_ok va vb N : Z.sgn (ev 0) <> Z.sgn vb -> Z.sgn (ev 0) <> 0%Z -> Z.sgn vb <> 0%Z -> forall fuel j b v2, (0 < j)%Z -> (j < 2 ^ N)%Z -> (j < Z.of_nat fuel)%Z ->
    Z.sgn (ev j) = Z.sgn vb ->
    exists s, left_loop fuel u (base + j * unit) b (ev j) v2 unit e newk = Some s /\ forall ok, core_post N va vb s ok.
  Proof.
    intros Hn Hn0 Hb. induction fuel as [|fuel IH]; intros j b v2 H0 H1 H2 H3; [zl|]. cbn [left_loop].
    replace (base + j * unit - unit)%Z with (base + (j - 1) * unit)%Z by ring. fold (ev (j - 1)).
    destruct (Z.eqb_spec (Z.sgn (ev (j - 1))) 0) as [E|E].
    - apply make_exact_ok; [|exact (proj1 (Z.sgn_null_iff _) E)|congruence]. split; [|zl]. destruct (Z.eq_dec (j - 1) 0) as [K|K]; [rewrite K in E; contradiction|zl].
    - destruct (Z.eqb_spec (Z.sgn (ev (j - 1))) (Z.sgn (ev j))) as [E'|E']; cbn [negb].
      + apply IH; try zl; try congruence. destruct (Z.eq_dec (j - 1) 0) as [K|K]; [rewrite K in E'; congruence|zl].
      + apply make_sub_ok; [zl|reflexivity|replace (j - 1 + 1)%Z with j by ring; reflexivity|]. apply sgn_opp; congruence.
  Qed.

  Lemma index_ok va vb N : (2 <= N)%Z -> (va * vb < 0)%Z -> exists index q, index_linearinterp va vb N = Some (index, q) /\ (0 <= q < 2 ^ N)%Z /\
    (index = q \/ (index = -1)%Z /\ (2 < q)%Z) /\ ((index =? -2)%Z || (index =? 0)%Z || ((N <? Z.log2 index)%Z && (0 <? index)%Z))%bool = (index =? 0)%Z.
  Proof.
    intros HN Hab. assert (P0 : (0 < 2 ^ N)%Z) by (apply Z.pow_pos_nonneg; lia).
    unfold index_linearinterp. destruct (Z.eqb_spec (va - vb) 0) as [K|_]; [replace vb with va in Hab by lia; nia|].
    pose proof (quot_range va vb (2 ^ N) Hab P0) as Q. set (q := Z.quot (va * 2 ^ N) (va - vb)) in *. clearbody q.
    assert (Sz : (sizeb q <= N)%Z).
    { destruct (sizeb_spec q) as (_ & S2 & S3). destruct (Z.eq_dec q 0) as [E|Hq]; [rewrite E; change (sizeb 0) with 1%Z; lia|]. specialize (S2 Hq). destruct (Z_le_gt_dec (sizeb q) N); [assumption|exfalso].
      assert (2 ^ N <= 2 ^ (sizeb q - 1))%Z by (apply Z.pow_le_mono_r; lia). lia. }
    eexists. exists q. split; [reflexivity|]. split; [assumption|]. replace (Z.abs q) with q by lia.
    assert (I : forall index, index = (if (64 <=? sizeb q)%Z then if (N <? sizeb q)%Z then (-2)%Z else (-1)%Z else q) -> (index = q \/ (index = -1)%Z /\ (2 < q)%Z)).
    { intros index ->. destruct (Z.leb_spec 64 (sizeb q)) as [K|K]; [|auto]. right. destruct (Z.ltb_spec N (sizeb q)); [lia|]. split; [reflexivity|].
      destruct (Z_lt_le_dec 2 q) as [|L]; [assumption|exfalso]. assert (q = 0 \/ q = 1 \/ q = 2)%Z as [->|[->| ->]] by lia; unfold sizeb in K; cbn in K; lia. }
    specialize (I _ eq_refl). revert I. generalize (if (64 <=? sizeb q)%Z then if (N <? sizeb q)%Z then (-2)%Z else (-1)%Z else q). intros index I.
    split; [assumption|]. destruct (Z.eqb_spec index (-2)); [lia|]. destruct (Z.eqb_spec index 0); [reflexivity|]. cbn [orb].
    destruct (Z.ltb_spec 0 index); [|apply andb_false_r]. destruct (Z.ltb_spec N (Z.log2 index)) as [L|L]; [exfalso|reflexivity].
    assert (Hl : (Z.log2 index <= Z.log2 (2 ^ N))%Z) by (apply Z.log2_le_mono; lia). rewrite Z.log2_pow2 in Hl; lia.
  Qed.
  Lemma refine_core_ok va vb N : (2 <= N)%Z -> (va * vb < 0)%Z -> Z.sgn (ev 0) = Z.sgn va -> Z.sgn (ev (2 ^ N)) = Z.sgn vb ->
    exists s ok, refine_core u rt va vb N base unit e newk = Some (s, ok) /\ core_post N va vb s ok.
  Proof.
    intros HN Hab Ea Eb. assert (P0 : (4 <= 2 ^ N)%Z) by (change 4%Z with (2 ^ 2)%Z; apply Z.pow_le_mono_r; lia).
    unfold refine_core. destruct (index_ok va vb N HN Hab) as (index & q & -> & Q & I & B). cbn [obind]. rewrite B. clear B.
    assert (Sa : Z.sgn va <> 0%Z) by (destruct va; cbn in *; lia).
    assert (Sb : Z.sgn vb <> 0%Z) by (destruct va, vb; cbn in *; lia).
    assert (Sab : Z.sgn va <> Z.sgn vb) by (intros A; destruct va, vb; cbn in *; lia).
    destruct ((index =? 0)%Z && negb (N =? 2)%Z)%bool eqn:Bd.
    { eexists. eexists. split; [reflexivity|]. apply cp_keep; auto. apply andb_prop in Bd. destruct Bd as [_ Bd]. destruct (Z.eqb_spec N 2); [discriminate|assumption]. }
    assert (J : exists j, (0 < j < 2 ^ N)%Z /\ (if (0 <=? (if (index =? 0)%Z then 2 else index))%Z then base + (if (index =? 0)%Z then 2 else index) * unit else base + q * unit)%Z = (base + j * unit)%Z /\
      ((if (index =? 0)%Z then 2 else index) = j \/ (if (index =? 0)%Z then 2 else index) = -1 /\ 2 < j)%Z).
    { destruct (Z.eqb_spec index 0) as [I0|I0].
      - exists 2%Z. cbn [Z.leb Z.compare]. split; [lia|]. split; [reflexivity|]. left; reflexivity.
      - destruct I as [I|[I I2]].
        + exists q. destruct (Z.leb_spec 0 index); [|lia]. split; [lia|]. split; [subst index; reflexivity|]. left; assumption.
        + exists q. destruct (Z.leb_spec 0 index); [lia|]. split; [lia|]. split; [reflexivity|]. right. split; assumption. }
    destruct J as (j & J1 & J2 & J3). rewrite J2. set (index' := if (index =? 0)%Z then 2%Z else index) in *. clearbody index'. fold (ev j).
    destruct (Z.eqb_spec (Z.sgn (ev j)) 0) as [E0|E0].
    { destruct (make_exact_ok j va vb N (ev j) vb J1 (proj1 (Z.sgn_null_iff _) E0) ltac:(congruence)) as (s & -> & C). cbn [obind]. eauto. }
    destruct (Z.eqb_spec (Z.sgn va) (Z.sgn (ev j))) as [E1|E1].
    - destruct (Z.eqb_spec index' 3) as [I3|I3]; [destruct (Z.eqb_spec N 2) as [N2|N2]|]; cbn [andb].
      { destruct J3 as [J3|J3]; [|zl]. assert (Ej : (j + 1 = 2 ^ N)%Z) by (subst N; zl).
        destruct (make_sub_ok j va vb N (ev j) vb ltac:(zl) eq_refl ltac:(rewrite Ej; exact Eb)) as (s & -> & C); [apply sgn_opp; congruence|]. cbn [obind]. eauto. }
      all: replace (base + j * unit + unit)%Z with (base + (j + 1) * unit)%Z by ring; fold (ev (j + 1)).
      all: destruct (Z.eqb_spec (Z.sgn (ev (j + 1))) 0) as [E2|E2].
      1,3: assert (Ej : (j + 1 <> 2 ^ N)%Z) by (intros Ej; rewrite Ej in E2; congruence);
        destruct (make_exact_ok (j + 1) va vb N (ev j) (ev (j + 1)) ltac:(zl) (proj1 (Z.sgn_null_iff _) E2) ltac:(congruence)) as (s & -> & C); cbn [obind]; solve [eauto].
      all: destruct (Z.eqb_spec (Z.sgn (ev j)) (Z.sgn (ev (j + 1)))) as [E3|E3]; cbn [negb].
      2,4: destruct (make_sub_ok j va vb N (ev j) (ev (j + 1)) ltac:(zl) eq_refl eq_refl) as (s & -> & C); [apply sgn_opp; congruence|]; cbn [obind]; solve [eauto].
      { destruct (Z.eqb_spec N 2) as [K|_]; [contradiction|]. cbn [negb]. eexists. eexists. split; [reflexivity|]. apply cp_keep; auto. }
      destruct (Z.eqb_spec N 2) as [N2|N2]; cbn [negb].
      + replace (base + (j + 1) * unit)%Z with (base + j * unit + unit)%Z by ring.
        assert (Ej : (j + 1 <> 2 ^ N)%Z) by (intros Ej; rewrite Ej in E3; congruence).
        destruct (right_loop_ok va vb N ltac:(congruence) ltac:(congruence) Sa 6 j (ev j)) as (s & -> & C); try zl; try congruence.
        { clear - N2 J1. subst N. change (2 ^ 2)%Z with 4%Z in *. zl. } cbn [obind]. eauto.
      + eexists. eexists. split; [reflexivity|]. apply cp_keep; auto.
    - assert (Eq : Z.sgn (ev j) = Z.sgn vb) by (destruct va, vb, (ev j); cbn in *; congruence).
      destruct (Z.eqb_spec index' 1) as [I1|I1].
      { destruct J3 as [J3|J3]; [|zl]. assert (j = 1%Z) by zl. subst j.
        destruct (make_sub_ok 0 va vb N va (ev 1) ltac:(zl) Ea eq_refl) as (s & E & C); [apply sgn_opp; congruence|].
        replace (base + 0 * unit)%Z with base in E by ring. rewrite I1, E. cbn [obind]. eauto. }
      assert (J4 : (1 < j)%Z) by zl.
      replace (base + j * unit - unit)%Z with (base + (j - 1) * unit)%Z by ring. fold (ev (j - 1)).
      destruct (Z.eqb_spec (Z.sgn (ev (j - 1))) 0) as [E2|E2].
      { destruct (make_exact_ok (j - 1) va vb N (ev (j - 1)) (ev j) ltac:(clear - J1 J4; zl) (proj1 (Z.sgn_null_iff _) E2) ltac:(congruence)) as (s & -> & C). cbn [obind]. eauto. }
      destruct (Z.eqb_spec (Z.sgn (ev (j - 1))) (Z.sgn (ev j))) as [E3|E3]; cbn [negb].
      + destruct (Z.eqb_spec N 2) as [N2|N2]; cbn [negb].
        * destruct (left_loop_ok va vb N ltac:(congruence) ltac:(congruence) Sb 6 (j - 1) (base + j * unit) (ev j)) as (s & -> & C); try zl; try congruence.
          { subst N. cbn in J1. zl. } cbn [obind]. eauto.
        * eexists. eexists. split; [reflexivity|]. apply cp_keep; auto.
      + destruct (make_sub_ok (j - 1) va vb N (ev (j - 1)) (ev j) ltac:(zl) eq_refl ltac:(replace (j - 1 + 1)%Z with j by ring; reflexivity)) as (s & -> & C); [apply sgn_opp; congruence|]. cbn [obind]. eauto.
  Qed.
End Core.

(** ** Records as intervals *)
Lemma record_lo_eq i : record_lo i = IZR (numer i) * p2 (- Z.max 0 (ik i)).
Proof.
  unfold record_lo. destruct (Z.leb_spec 0 (ik i)) as [H|H]; [rewrite Z.max_r by lia; reflexivity|]. rewrite Z.max_l by lia. change (- 0)%Z with 0%Z. rewrite p2_0. ring.
Qed.
Lemma record_hi_eq i : record_hi i = record_lo i + p2 (- ik i).
Proof. unfold record_hi, record_lo. destruct (Z.leb 0 (ik i)); ring. Qed.
Lemma record_set_open i x : isexact i = false -> (record_set i x <-> record_lo i < x < record_hi i).
Proof. intros E. unfold record_set, in_record, record_lo, record_hi. rewrite E. destruct (Z.leb 0 (ik i)); tauto. Qed.
Lemma record_set_exact n k x : record_set (clear_k {| numer := n; ik := k; isexact := true |}) x <-> x = IZR n * p2 (- Z.max 0 k).
Proof.
  unfold clear_k, record_set, in_record. cbn [isexact ik numer andb]. destruct (Z.ltb_spec k 0); cbn [isexact ik numer].
  - rewrite Z.max_l by lia. tauto.
  - rewrite Z.max_r by lia. tauto.
Qed.

Definition okst (s : rstate) : Prop :=
  isexact (rint s) = false /\ 0 < IZR (rva s) * zeval (rpol s) (record_lo (rint s)) /\ 0 < IZR (rvb s) * zeval (rpol s) (record_hi (rint s)) /\ (rva s * rvb s < 0)%Z.
(** Outcome of a refinement: a sub-interval with values of opposite signs at the ends, or an exact root inside. *)
Definition sub_of (s s' : rstate) : Prop :=
  rpol s' = rpol s /\ okst s' /\ record_lo (rint s) <= record_lo (rint s') /\ record_hi (rint s') <= record_hi (rint s) /\ (ik (rint s) <= ik (rint s'))%Z.
Definition exact_of (s s' : rstate) : Prop :=
  exists x, record_lo (rint s) < x < record_hi (rint s) /\ root (rpol s) x /\ isexact (rint s') = true /\
    (forall y, record_set (clear_k (rint s')) y <-> y = x) /\ quot_by (rpol s) x (rpol s') /\ Z.sgn (rva s') <> Z.sgn (rvb s') /\ (ik (rint s) <= ik (rint s'))%Z.
Lemma sub_of_refl s : okst s -> sub_of s s.
Proof. intros H. split; [reflexivity|]. split; [assumption|]. split; [lra|]. split; [lra|lia]. Qed.
Lemma sub_of_trans s1 s2 s3 : sub_of s1 s2 -> sub_of s2 s3 -> sub_of s1 s3.
Proof. intros (A1 & _ & A3 & A4 & A5) (B1 & B2 & B3 & B4 & B5). split; [congruence|]. split; [assumption|]. split; [lra|]. split; [lra|lia]. Qed.
Lemma sub_exact_trans s1 s2 s3 : sub_of s1 s2 -> exact_of s2 s3 -> exact_of s1 s3.
Proof. intros (A1 & _ & A3 & A4 & A5) (x & B1 & B2 & B3 & B4 & B5 & B6 & B7). rewrite A1 in *. exists x. split; [lra|]. repeat (split; [assumption|]). lia. Qed.

Lemma sgn_pos v (s y : R) : 0 < s -> IZR v = s * y -> forall w, 0 < IZR w * y <-> Z.sgn v = Z.sgn w /\ Z.sgn w <> 0%Z.
Proof.
  intros Hs E w. assert (Ey : y = IZR v / s) by (rewrite E; field; lra). assert (K : 0 < IZR w * y <-> (0 < w * v)%Z).
  { subst y. replace (IZR w * (IZR v / s)) with (IZR (w * v) * / s) by (rewrite mult_IZR; unfold Rdiv; ring). pose proof (Rinv_0_lt_compat s Hs). split; intros L.
    - apply lt_IZR. apply Rmult_lt_reg_r with (/ s); lra.
    - apply IZR_lt in L. apply Rmult_lt_0_compat; assumption. }
  rewrite K. split.
  - intros L. split; destruct w, v; cbn in *; lia.
  - intros [L1 L2]. destruct w, v; cbn in *; lia.
Qed.

Section Step.
  Variables (u : list Z) (rt : interval) (va vb N base unit e newk : Z).
  Hypothesis Hl : lead_ok u.
  Hypothesis HN : (2 <= N)%Z.
  Hypothesis He : e = Z.max 0 newk.
  Hypothesis Hk : newk = (ik rt + N)%Z.
  Hypothesis geom : forall j, IZR (base + j * unit) * p2 (- e) = record_lo rt + IZR j * p2 (- newk).
  Let s := {| rpol := u; rint := rt; rva := va; rvb := vb |}.
  Lemma ev_eq j : exists m, 0 < m /\ IZR (ev u base unit e j) = m * zeval u (record_lo rt + IZR j * p2 (- newk)).
  Proof.
    unfold ev. exists (p2 e ^ (length u - 1)). split; [apply pow_lt, p2_pos|]. rewrite eval_2exp_ok by lia. rewrite <- geom, p2_inv. reflexivity.
  Qed.
  Lemma width : record_hi rt = record_lo rt + IZR (2 ^ N) * p2 (- newk).
  Proof. rewrite record_hi_eq, pow2_IZR by lia. rewrite <- p2_add. do 2 f_equal. lia. Qed.
  Lemma step_core : okst s -> exists s' ok, refine_core u rt va vb N base unit e newk = Some (s', ok) /\
    ((s' = s /\ ok = false /\ N <> 2%Z) \/ (sub_of s s' /\ ik (rint s') = newk) \/ exact_of s s').
  Proof.
    intros (_ & O1 & O2 & O3). cbn [s rva rvb rpol rint] in *. pose proof (p2_pos (- newk)) as Pp.
    assert (Sg : forall j w, 0 < IZR w * zeval u (record_lo rt + IZR j * p2 (- newk)) <-> Z.sgn (ev u base unit e j) = Z.sgn w /\ Z.sgn w <> 0%Z).
    { intros j w. destruct (ev_eq j) as (m & Hm & E). apply (sgn_pos _ m); assumption. }
    assert (Rt : forall j, ev u base unit e j = 0%Z -> root u (IZR (base + j * unit) * p2 (- e))).
    { intros j E. destruct (ev_eq j) as (m & Hm & E'). rewrite E in E'. symmetry in E'. apply Rmult_integral in E'. destruct E' as [E'|E']; [lra|]. unfold root. rewrite geom. exact E'. }
    assert (He' : e = if (0 <=? newk)%Z then newk else 0%Z) by (destruct (Z.leb_spec 0 newk); lia).
    destruct (refine_core_ok u rt base unit e newk) with (va := va) (vb := vb) (N := N) as (s' & ok & E & C); try assumption.
    - intros j Hj. destruct (quotient_ok u (base + j * unit) e ltac:(lia) Hl (Rt j Hj)) as (q & Eq & _). exists q. rewrite <- He'. exact Eq.
    - apply Sg. replace (record_lo rt + IZR 0 * p2 (- newk)) with (record_lo rt) by ring. assumption.
    - apply Sg. rewrite <- width. assumption.
    - exists s', ok. split; [assumption|]. inversion C as [C1 C2 C3|j C1 C2 C3 C4 C5 C6|j q C1 C2 C3 C4 C5 C6].
      + left. auto.
      + right. left. split; [|rewrite C3; reflexivity].
        assert (Lo : record_lo (rint s') = record_lo rt + IZR j * p2 (- newk)) by (rewrite record_lo_eq, C3; cbn [numer ik]; rewrite <- He; apply geom).
        assert (Hi : record_hi (rint s') = record_lo rt + IZR (j + 1) * p2 (- newk)) by (rewrite record_hi_eq, Lo, C3; cbn [ik]; rewrite plus_IZR; ring).
        assert (N1 : (Z.sgn (rva s') <> 0)%Z) by (destruct (rva s'); cbn in *; lia). assert (N2 : (Z.sgn (rvb s') <> 0)%Z) by (destruct (rva s'), (rvb s'); cbn in *; lia).
        destruct C1 as [C1 C1']. apply IZR_le in C1. assert (C1'' : (j + 1 <= 2 ^ N)%Z) by lia. apply IZR_le in C1''.
        split; [assumption|]. split; [split; [rewrite C3; reflexivity|]|cbn [s rint]].
        * rewrite C2, Lo, Hi. split; [apply Sg; auto|]. split; [apply Sg; auto|assumption].
        * rewrite Lo, Hi, width. split; [|split; [|rewrite C3; cbn [ik]; lia]]; [apply Rplus_le_reg_l with (- record_lo rt); pose proof (Rmult_le_pos _ _ C1 (Rlt_le _ _ Pp)); lra|apply Rplus_le_compat_l; apply Rmult_le_compat_r; lra].
      + right. right. exists (record_lo rt + IZR j * p2 (- newk)). destruct C1 as [C1 C1']. apply IZR_lt in C1. apply IZR_lt in C1'. cbn [s rint rpol].
        split; [|split; [|split; [|split; [|split; [|split]]]]].
        * rewrite width. split; [pose proof (Rmult_lt_0_compat _ _ C1 Pp); lra|]. apply Rplus_lt_compat_l. apply Rmult_lt_compat_r; assumption.
        * rewrite <- geom. apply Rt. assumption.
        * rewrite C5. reflexivity.
        * intros y. rewrite C5, record_set_exact, <- He, geom. tauto.
        * rewrite <- geom. destruct (quotient_ok u (base + j * unit) e ltac:(lia) Hl (Rt j C2)) as (q' & Eq & Q'). rewrite <- He', Eq in C3. injection C3 as <-. rewrite C4. assumption.
        * assumption.
        * rewrite C5. cbn [ik]. lia.
  Qed.
End Step.

Lemma refine_by_N_ok s N : lead_ok (rpol s) -> (2 <= N)%Z -> okst s -> exists s' ok, refine_by_N s N = Some (s', ok) /\
    ((s' = s /\ ok = false /\ N <> 2%Z) \/ (sub_of s s' /\ ik (rint s') = (ik (rint s) + N)%Z) \/ exact_of s s').
Proof.
  intros Hl HN O. pose proof (proj1 O) as Ex. destruct s as [u rt va vb]. cbn [rpol rint rva rvb] in *. unfold refine_by_N. cbn [rpol rint rva rvb]. rewrite Ex.
  destruct (Z.ltb_spec (ik rt) 0) as [K|K]; [destruct (Z.leb_spec 0 (- ik rt - N)) as [K'|K']|].
  - apply step_core; try assumption; try reflexivity; try lia. intros j. rewrite record_lo_eq, Z.max_l by lia. change (- 0)%Z with 0%Z. rewrite p2_0.
    rewrite plus_IZR, mult_IZR, pow2_IZR by lia. replace (- ik rt - N)%Z with (- (ik rt + N))%Z by ring. ring.
  - apply step_core; try assumption; try reflexivity; try lia. intros j. rewrite record_lo_eq, Z.max_l by lia. change (- 0)%Z with 0%Z. rewrite p2_0.
    rewrite plus_IZR, !mult_IZR, pow2_IZR by lia. rewrite Rmult_plus_distr_r, (Rmult_assoc (IZR (numer rt))), <- p2_add. replace (ik rt + N + - (ik rt + N))%Z with 0%Z by ring. rewrite p2_0. ring.
  - apply step_core; try assumption; try reflexivity; try lia. intros j. rewrite record_lo_eq, Z.max_r by lia.
    rewrite plus_IZR, !mult_IZR, pow2_IZR by lia. rewrite Rmult_plus_distr_r, (Rmult_assoc (IZR (numer rt))), <- p2_add. replace (N + - (ik rt + N))%Z with (- ik rt)%Z by ring. ring.
Qed.

(** ** The loop *)
Lemma qir_ok : forall fuel s prec m, lead_ok (rpol s) -> okst s -> (1 <= m)%nat -> (Z.to_nat (prec - ik (rint s)) + m < fuel)%nat ->
  exists s', qir_loop fuel s prec (2 ^ Z.of_nat m) = Some s' /\ ((sub_of s s' /\ (prec <= ik (rint s'))%Z) \/ exact_of s s').
Proof.
  induction fuel as [|fuel IH]; intros s prec m Hl O Hm Hf; [lia|]. cbn [qir_loop]. rewrite (proj1 O). cbn [orb].
  destruct (Z.leb_spec prec (ik (rint s))) as [K|K]; [exists s; split; [reflexivity|left; split; [apply sub_of_refl; assumption|assumption]]|].
  assert (HN : (2 <= 2 ^ Z.of_nat m)%Z) by (change 2%Z with (2 ^ 1)%Z at 1; apply Z.pow_le_mono_r; lia).
  destruct (refine_by_N_ok s (2 ^ Z.of_nat m) Hl HN O) as (s' & ok & E & C). rewrite E. cbn [obind].
  assert (Hh : (2 < 2 ^ Z.of_nat m)%Z -> exists m', m = S m' /\ (1 <= m')%nat /\ (2 ^ Z.of_nat m / 2 = 2 ^ Z.of_nat m')%Z).
  { intros L. destruct m as [|[|m']]; [lia|cbn in L; lia|]. exists (S m'). split; [reflexivity|]. split; [lia|]. rewrite (Nat2Z.inj_succ (S m')), Z.pow_succ_r by lia. rewrite Z.mul_comm. apply Z.div_mul. lia. }
  destruct C as [(-> & -> & C)|[(C1 & C2)|C]].
  - rewrite (proj1 O). destruct (Z.eqb_spec (Z.sgn (rva s)) (Z.sgn (rvb s))) as [E'|_]; [exfalso; destruct O as (_ & _ & _ & O); destruct (rva s), (rvb s); cbn in *; lia|].
    destruct (Z.ltb_spec 2 (2 ^ Z.of_nat m)) as [L|L]; [|lia]. destruct (Hh L) as (m' & -> & Hm' & ->). apply IH; auto. lia.
  - pose proof C1 as (D1 & D2 & _). rewrite (proj1 D2).
    destruct (Z.eqb_spec (Z.sgn (rva s')) (Z.sgn (rvb s'))) as [E'|_]; [exfalso; destruct D2 as (_ & _ & _ & D2); destruct (rva s'), (rvb s'); cbn in *; lia|].
    assert (G : exists m', (if ok then if (2 ^ Z.of_nat m <? prec - ik (rint s'))%Z then 2 * 2 ^ Z.of_nat m else 2 ^ Z.of_nat m else if (2 <? 2 ^ Z.of_nat m)%Z then 2 ^ Z.of_nat m / 2 else 2 ^ Z.of_nat m)%Z = (2 ^ Z.of_nat m')%Z /\
       (1 <= m')%nat /\ (Z.to_nat (prec - ik (rint s')) + m' < fuel)%nat).
    { rewrite C2. set (M := (2 ^ Z.of_nat m)%Z) in *. destruct ok.
      - destruct (Z.ltb_spec M (prec - (ik (rint s) + M))) as [L|L].
        + exists (S m). split; [rewrite Nat2Z.inj_succ, Z.pow_succ_r by lia; reflexivity|]. split; [lia|]. lia.
        + exists m. split; [reflexivity|]. split; [lia|]. lia.
      - destruct (Z.ltb_spec 2 M) as [L|L].
        + destruct (Hh L) as (m' & Em & Hm' & E2). exists m'. split; [assumption|]. split; [assumption|]. lia.
        + exists m. split; [reflexivity|]. split; [lia|]. lia. }
    destruct G as (m' & -> & Hm' & Hf'). destruct (IH s' prec m' ltac:(rewrite D1; assumption) D2 Hm' Hf') as (s2 & E2 & R). exists s2. split; [exact E2|].
    destruct R as [[R1 R2]|R]; [left; split; [eapply sub_of_trans; eassumption|assumption]|right; eapply sub_exact_trans; eassumption].
  - pose proof C as (x & _ & _ & Ex & _). rewrite Ex. exists s'. split; [reflexivity|]. right. assumption.
Qed.
Lemma qir_mono : forall f1 f2 s prec N r, (f1 <= f2)%nat -> qir_loop f1 s prec N = Some r -> qir_loop f2 s prec N = Some r.
Proof.
  induction f1 as [|f1 IH]; intros f2 s prec N r L H; [discriminate|]. destruct f2 as [|f2]; [lia|]. cbn [qir_loop] in *.
  destruct (isexact (rint s) || (prec <=? ik (rint s))%Z)%bool; [assumption|]. destruct (refine_by_N s N) as [[s' ok]|]; cbn [obind] in *; [|discriminate].
  destruct (isexact (rint s')); [assumption|]. destruct (Z.sgn (rva s') =? Z.sgn (rvb s'))%Z; [discriminate|]. eapply IH; [|eassumption]. lia.
Qed.

(** ** A polynomial and one interval with values of opposite signs at its ends *)
Lemma values_sign u rt : isexact rt = false -> let v := values_at_bounds u rt in
  exists m, 0 < m /\ IZR (fst v) = m * zeval u (record_lo rt) /\ IZR (snd v) = m * zeval u (record_hi rt).
Proof.
  intros Ex. unfold values_at_bounds. destruct (Z.ltb_spec 0 (ik rt)) as [K|K]; cbn [fst snd].
  - exists (p2 (ik rt) ^ (length u - 1)). split; [apply pow_lt, p2_pos|]. rewrite !eval_2exp_ok by lia. unfold record_lo, record_hi. destruct (Z.leb_spec 0 (ik rt)); [|lia].
    unfold Rdiv. rewrite p2_inv, plus_IZR. split; reflexivity.
  - exists 1. split; [lra|]. rewrite !eval_point_ok. rewrite record_hi_eq, record_lo_eq, Z.max_l by lia. change (- 0)%Z with 0%Z. rewrite p2_0, plus_IZR, pow2_IZR by lia. rewrite Rplus_comm, !Rmult_1_r, !Rmult_1_l.
    split; [reflexivity|f_equal; ring].
Qed.

Lemma refine_pos_ok u rt prec : lead_ok u -> isexact rt = false -> zeval u (record_lo rt) * zeval u (record_hi rt) < 0 ->
  exists s0 s, rpol s0 = u /\ rint s0 = rt /\ ((sub_of s0 s /\ (prec <= ik (rint s))%Z) \/ exact_of s0 s) /\
    exists f0, forall fuel, (f0 <= fuel)%nat -> refine_pos_root fuel u rt prec = Some s.
Proof.
  intros Hl Ex Hs. destruct (values_sign u rt Ex) as (m & Hm & E1 & E2). unfold refine_pos_root. set (v := values_at_bounds u rt) in *.
  set (s0 := {| rpol := u; rint := rt; rva := fst v; rvb := snd v |}). 
  assert (P1 : zeval u (record_lo rt) <> 0) by (intros A; rewrite A in Hs; lra). assert (P2 : zeval u (record_hi rt) <> 0) by (intros A; rewrite A in Hs; lra).
  assert (Sq : forall y, y <> 0 -> 0 < m * y * y). { intros y Hy. rewrite Rmult_assoc. apply Rmult_lt_0_compat; [assumption|]. destruct (Rtotal_order y 0) as [|[|]]; [|contradiction|apply Rmult_lt_0_compat; lra]. replace (y * y) with ((- y) * (- y)) by ring. apply Rmult_lt_0_compat; lra. }
  assert (O : okst s0).
  { split; [assumption|]. cbn [s0 rva rvb rint rpol]. rewrite E1, E2. split; [apply Sq; assumption|]. split; [apply Sq; assumption|].
    apply lt_IZR. rewrite mult_IZR, E1, E2. replace (m * zeval u (record_lo rt) * (m * zeval u (record_hi rt))) with ((m * m) * (zeval u (record_lo rt) * zeval u (record_hi rt))) by ring.
    pose proof (Rmult_lt_0_compat _ _ Hm Hm). apply Ropp_lt_cancel. rewrite Ropp_0, <- Ropp_mult_distr_r_reverse. apply Rmult_lt_0_compat; lra. }
  destruct (qir_ok (S (Z.to_nat (prec - ik rt) + 1)) s0 prec 1 Hl O (le_n _)) as (s & E & R); [cbn [s0 rint]; lia|]. change (2 ^ Z.of_nat 1)%Z with 2%Z in E.
  exists s0, s. split; [reflexivity|]. split; [reflexivity|]. split; [assumption|]. exists (S (Z.to_nat (prec - ik rt) + 1)). intros fuel Hf.
  rewrite (qir_mono _ _ _ _ _ _ Hf E). cbn [obind].
  destruct O as (_ & _ & _ & O). cbn [s0 rva rvb] in O.
  destruct (Z.eqb_spec (Z.sgn (fst v)) 0) as [A|A]; [destruct (fst v); cbn in *; lia|]. destruct (Z.eqb_spec (Z.sgn (snd v)) 0) as [B|B]; [destruct (fst v), (snd v); cbn in *; lia|]. cbn [orb].
  destruct (Z.eqb_spec (Z.sgn (rva s)) (Z.sgn (rvb s))) as [C|C]; [exfalso|reflexivity].
  destruct R as [[(_ & (_ & _ & _ & R) & _) _]|(x & _ & _ & _ & _ & _ & R & _)]; [|contradiction]. destruct (rva s), (rvb s); cbn in *; lia.
Qed.
