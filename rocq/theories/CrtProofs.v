From Coq Require Import ZArith List Bool Lia Znumtheory.
From Verif Require Import ModInvModel ModInvProofs CrtModel.
Open Scope Z_scope.

(** ** n_invmod *)
Lemma egcd_loop_ok p v : forall n a b c d, inv p v a b c d -> b < 2 ^ (Z.of_nat n) ->
  forall k, (2 * n <= k)%nat -> (p | egcd_loop (S k) a b c d * v - Z.gcd p v).
Proof.
  induction n as [|n IH]; intros a b c d Hi Hlt k Hk.
  - assert (b = 0) by (destruct Hi; simpl in Hlt; lia). subst b.
    destruct Hi. cbn. rewrite <- i_gcd, Z.gcd_0_r, Z.abs_eq by lia. assumption.
  - destruct (Z.eq_dec b 0) as [->|Hb].
    { destruct Hi. cbn. rewrite <- i_gcd, Z.gcd_0_r, Z.abs_eq by lia. assumption. }
    destruct k as [|[|k]]; try lia.
    destruct (step_inv _ _ _ _ _ _ Hi Hb) as (Hi1 & _ & _ & Hr1 & _).
    remember (S k) as k1. cbn [egcd_loop]. destruct (Z.eqb_spec b 0); [lia|].
    set (b1 := a - a / b * b) in *. set (c1 := d - a / b * c) in *. subst k1.
    destruct (Z.eq_dec b1 0) as [E|Hb1].
    { cbn [egcd_loop]. rewrite E. rewrite Z.eqb_refl.
      rewrite E in Hi1. destruct Hi1. rewrite <- i_gcd, Z.gcd_0_r, Z.abs_eq by lia. assumption. }
    destruct (step_inv _ _ _ _ _ _ Hi1 Hb1) as (Hi2 & He2 & _ & Hr2 & _).
    remember (S k) as k1. cbn [egcd_loop]. destruct (Z.eqb_spec b1 0); [lia|]. subst k1.
    apply IH; [assumption| |lia].
    rewrite Nat2Z.inj_succ, Z.pow_succ_r in Hlt by lia.
    assert (1 <= b / b1) by (apply Z.div_le_lower_bound; lia). nia.
Qed.

Lemma inv_start p v b : 0 < p -> 0 <= b < p -> (p | v - b) -> inv p v p b 1 0.
Proof.
  intros Hp Hb Hbv. constructor; try lia.
  - replace (1 * v - b) with (v - b) by lia. assumption.
  - exists (-1). lia.
  - destruct Hbv as [q Hq]. replace v with (b + q * p) by lia.
    rewrite Z.gcd_add_mult_diag_r. reflexivity.
Qed.

Lemma mod_div x m : 0 < m -> (m | x - x mod m).
Proof. intros H. exists (x / m). pose proof (Z.div_mod x m). lia. Qed.

Lemma log2_bound m : 0 < m -> m < 2 ^ (Z.log2 m + 1).
Proof. intros H. pose proof (Z.log2_spec m H). replace (Z.log2 m + 1) with (Z.succ (Z.log2 m)) by lia. lia. Qed.

Lemma n_invmod_spec x y : 1 < y -> Z.gcd x y = 1 ->
  exists r, n_invmod x y = Some r /\ 0 < r < y /\ (r * x) mod y = 1.
Proof.
  intros Hy Hg. unfold n_invmod. rewrite Hg. cbn [Z.eqb Pos.eqb].
  eexists. split; [reflexivity|].
  pose proof (Z.mod_pos_bound x y ltac:(lia)) as Hxm.
  assert (Hi : inv y x y (x mod y) 1 0) by (apply inv_start; [lia|lia|apply mod_div; lia]).
  replace (Z.to_nat (2 * Z.log2 y + 3)) with (S (2 * Z.to_nat (Z.log2 y + 1)))
    by (pose proof (Z.log2_nonneg y); lia).
  pose proof (egcd_loop_ok y x (Z.to_nat (Z.log2 y + 1)) _ _ _ _ Hi) as H.
  rewrite Z2Nat.id in H by (pose proof (Z.log2_nonneg y); lia).
  pose proof (log2_bound y ltac:(lia)).
  specialize (H ltac:(lia) (2 * Z.to_nat (Z.log2 y + 1))%nat ltac:(lia)).
  set (d := egcd_loop _ _ _ _ _) in *.
  rewrite Z.gcd_comm, Hg in H. destruct H as [q Hq].
  assert (Hm : (d mod y * x) mod y = 1).
  { rewrite Z.mul_mod_idemp_l by lia. replace (d * x) with (1 + q * y) by lia.
    rewrite Z.mod_add by lia. apply Z.mod_small; lia. }
  split; [|assumption].
  pose proof (Z.mod_pos_bound d y ltac:(lia)).
  assert (d mod y <> 0). { intros E; rewrite E in Hm. simpl in Hm. rewrite Z.mod_0_l in Hm; lia. }
  lia.
Qed.

(** ** CRT step *)
Lemma n_submod_spec x y n : 0 <= x < n -> 0 <= y < n -> n <= 2 ^ 64 ->
  n_submod x y n = (x - y) mod n.
Proof.
  intros Hx Hy Hn. unfold n_submod. destruct (Z.gtb_spec y x).
  - replace ((x - y) mod 2 ^ 64) with (x - y + 2 ^ 64).
    + replace (x - y + 2 ^ 64 + n) with (x - y + n + 1 * 2 ^ 64) by lia.
      rewrite Z.mod_add by lia. rewrite Z.mod_small by lia.
      apply Z.mod_unique with (q := -1); lia.
    + apply Z.mod_unique with (q := -1); lia.
  - rewrite Z.mod_small; lia.
Qed.

Definition cong (m a b : Z) : Prop := (m | a - b).

Lemma mpz_CRT_ui_ok r1 m1 r2 m2 sign :
  0 < m1 -> 1 < m2 <= 2 ^ 64 -> Z.gcd m1 m2 = 1 -> - m1 < r1 < m1 -> 0 <= r2 < m2 ->
  exists x, mpz_CRT_ui r1 m1 r2 m2 (m1 * m2) sign = Some x /\
    cong m1 x r1 /\ cong m2 x r2 /\
    (if sign then 2 * Z.abs x <= m1 * m2 else 0 <= x < m1 * m2).
Proof.
  intros Hm1 Hm2 Hg Hr1 Hr2. unfold mpz_CRT_ui.
  destruct (Z.eqb_spec m2 0); [lia|].
  assert (Hg' : Z.gcd (m1 mod m2) m2 = 1).
  { rewrite Z.gcd_comm. rewrite Z.gcd_comm in Hg. rewrite <- Hg.
    rewrite (Z.gcd_comm m2 (m1 mod m2)). rewrite Z.gcd_mod by lia. reflexivity. }
  destruct (n_invmod_spec (m1 mod m2) m2 ltac:(lia) Hg') as (c & Hc & Hcr & Hcm).
  rewrite Hc. cbn [obind]. destruct (Z.eqb_spec c 0); [lia|].
  eexists. split; [reflexivity|].
  rewrite Z.mul_mod_idemp_r in Hcm by lia.
  unfold mpz_CRT_ui_precomp.
  set (t := if r1 <? 0 then r1 + m1 else r1).
  assert (Ht : 0 <= t < m1 /\ cong m1 t r1).
  { unfold t, cong. destruct (Z.ltb_spec r1 0); split; try lia.
    - exists 1; lia. - exists 0; lia. }
  destruct Ht as [Ht Htc].
  pose proof (Z.mod_pos_bound t m2 ltac:(lia)) as Htm.
  rewrite n_submod_spec by lia. unfold n_mulmod2.
  set (s := ((r2 - t mod m2) mod m2 * c) mod m2).
  assert (Hs : 0 <= s < m2) by (apply Z.mod_pos_bound; lia).
  set (y := t + m1 * s).
  assert (Hy : 0 <= y < m1 * m2) by (unfold y; nia).
  assert (Hy1 : cong m1 y r1).
  { unfold y, cong in *. destruct Htc as [q Hq]. exists (q + s). lia. }
  assert (Hy2 : cong m2 y r2).
  { unfold cong. apply Z.mod_divide; [lia|].
    unfold y, s.
    replace (t + m1 * (((r2 - t mod m2) mod m2 * c) mod m2) - r2)
      with (m1 * (((r2 - t mod m2) mod m2 * c) mod m2) + (t - r2)) by ring.
    rewrite <- Z.add_mod_idemp_l by lia. rewrite Z.mul_mod_idemp_r by lia.
    replace (m1 * ((r2 - t mod m2) mod m2 * c)) with ((r2 - t mod m2) mod m2 * (c * m1)) by ring.
    rewrite Z.mul_mod_idemp_l by lia.
    rewrite <- Z.mul_mod_idemp_r by lia. rewrite Hcm, Z.mul_1_r.
    rewrite Z.add_mod_idemp_l by lia.
    replace (r2 - t mod m2 + (t - r2)) with (t - t mod m2) by ring.
    apply Z.mod_divide; [lia|]. apply mod_div; lia. }
  destruct sign.
  - destruct (Z.leb_spec (Z.abs y) (Z.abs (y - m1 * m2))).
    + split; [assumption|]. split; [assumption|]. lia.
    + split; [|split].
      * destruct Hy1 as [q Hq]. exists (q - m2). lia.
      * destruct Hy2 as [q Hq]. exists (q - m1). lia.
      * lia.
  - auto.
Qed.

(** ** Folding *)
Lemma cong_mul m1 m2 a b : 0 < m1 -> 0 < m2 -> Z.gcd m1 m2 = 1 -> cong m1 a b -> cong m2 a b -> cong (m1*m2) a b.
Proof.
  intros H1 H2 Hg [q Hq] H. unfold cong in *. rewrite Hq in *.
  rewrite Z.mul_comm in H. apply Z.gauss in H; [|rewrite Z.gcd_comm; assumption].
  destruct H as [k Hk]. exists k. subst q. lia.
Qed.

Definition canonical (sign : bool) (m x : Z) : Prop :=
  if sign then 2 * Z.abs x <= m else 0 <= x < m.

(* pairwise coprime word-size moduli, coprime to the modulus m reached so far, and reduced residues *)
Fixpoint good_moduli (m : Z) (l : list (Z * Z)) : Prop :=
  match l with
  | nil => True
  | (c, p) :: l' => 1 < p <= 2 ^ 64 /\ Z.gcd m p = 1 /\ 0 <= c < p /\ good_moduli (m * p) l'
  end.

Definition modulus (m : Z) (l : list (Z * Z)) : Z := fold_left Z.mul (map snd l) m.

Lemma modulus_multiple l : forall m, (m | modulus m l).
Proof.
  induction l as [|[c p] l IH]; intros m; unfold modulus in *; cbn.
  - apply Z.divide_refl.
  - eapply Z.divide_trans; [|apply IH]. apply Z.divide_factor_l.
Qed.

Lemma crt_fold_ok sign : forall l x0 m, 0 < m -> -m < x0 < m -> canonical sign m x0 ->
  good_moduli m l ->
  exists y, crt_fold sign (x0, m) l = Some (y, modulus m l) /\ 0 < modulus m l /\
    canonical sign (modulus m l) y /\ cong m y x0 /\ (forall c p, In (c, p) l -> cong p y c).
Proof.
  induction l as [|[c p] l IH]; intros x0 m Hm Hr Hcan Hl.
  - exists x0. unfold modulus. cbn. repeat split; auto. exists 0; lia. intros ? ? [].
  - destruct Hl as (Hp & Hg & Hc & Hl).
    destruct (mpz_CRT_ui_ok x0 m c p sign Hm Hp Hg Hr Hc) as (y & Hy & Hy1 & Hy2 & Hyr).
    assert (Hmp : 0 < m * p) by nia.
    destruct (IH y (m * p) Hmp) as (z & Hz & Hz0 & Hz1 & Hz2 & Hz3).
    + destruct sign; lia.
    + destruct sign; cbn in *; lia.
    + assumption.
    + exists z. cbn [crt_fold crt_incr obind]. rewrite Hy. cbn [obind].
      change (modulus m ((c, p) :: l)) with (modulus (m * p) l).
      split; [assumption|]. split; [assumption|]. split; [assumption|].
      assert (H1 : cong m z x0).
      { destruct Hz2 as [a Ha], Hy1 as [b Hb]. exists (a * p + b). lia. }
      assert (H2 : cong p z c).
      { destruct Hz2 as [a Ha], Hy2 as [b Hb]. exists (a * m + b). lia. }
      split; [assumption|]. intros c' p' [E|E]; [injection E as <- <-; assumption|auto].
Qed.

(* two integers congruent modulo every modulus are congruent modulo the product *)
Lemma cong_modulus a b : forall l m, 0 < m -> good_moduli m l -> cong m a b ->
  (forall c p, In (c, p) l -> cong p a b) -> cong (modulus m l) a b.
Proof.
  induction l as [|[c p] l IH]; intros m Hm Hl Hc Hall.
  - assumption.
  - destruct Hl as (Hp & Hg & Hcr & Hl).
    change (modulus m ((c, p) :: l)) with (modulus (m * p) l).
    apply IH; [nia|assumption| |intros; eapply Hall; right; eassumption].
    apply cong_mul; try lia; try assumption. apply (Hall c p). left; reflexivity.
Qed.

Lemma canonical_unique_signed m x y : 0 < m -> cong m y x -> 2 * Z.abs y <= m -> 2 * Z.abs x < m -> y = x.
Proof. intros Hm [q Hq] Hy Hx. assert (-1 < q < 1) by nia. nia. Qed.

Lemma canonical_unique_unsigned m x y : 0 < m -> cong m y x -> 0 <= y < m -> y = x mod m.
Proof. intros Hm [q Hq] Hy. apply Z.mod_unique with (q := -q); lia. Qed.

(** ** Rational reconstruction *)
Lemma rr_loop_step N r0 r1 t0 t1 k : 0 <= N < r1 ->
  rr_loop (S k) N r0 r1 t0 t1 = rr_loop k N r1 (r0 - r0 / r1 * r1) t1 (t0 - r0 / r1 * t1).
Proof.
  intros H. cbn [rr_loop]. destruct (Z.gtb_spec r1 N); [|lia].
  destruct (Z.eqb_spec r1 0); [lia|]. reflexivity.
Qed.

Lemma rr_loop_stop N r0 r1 t0 t1 k : r1 <= N -> rr_loop (S k) N r0 r1 t0 t1 = Some (r1, t1).
Proof. intros H. cbn [rr_loop]. destruct (Z.gtb_spec r1 N); [lia|]. reflexivity. Qed.

(* the loop ends in a state of the Euclidean invariant with r1 <= N < r0 (or no iteration at all) *)
Lemma rr_loop_ok p v N : 0 <= N -> forall n r0 r1 t0 t1,
  inv p v r0 r1 t1 t0 -> N < r0 -> r1 < 2 ^ (Z.of_nat n) ->
  forall k, (2 * n <= k)%nat ->
  exists r0' r1' t0' t1', rr_loop (S k) N r0 r1 t0 t1 = Some (r1', t1') /\
     inv p v r0' r1' t1' t0' /\ r1' <= N /\ N < r0'.
Proof.
  intros HN. induction n as [|n IH]; intros r0 r1 t0 t1 Hi Hr0 Hlt k Hk.
  - assert (r1 <= N) by (simpl in Hlt; lia).
    exists r0, r1, t0, t1. rewrite rr_loop_stop by lia. auto.
  - destruct (Z_le_gt_dec r1 N) as [Hle|Hgt].
    { exists r0, r1, t0, t1. rewrite rr_loop_stop by lia. auto. }
    destruct k as [|[|k]]; try lia.
    rewrite rr_loop_step by lia.
    destruct (step_inv _ _ _ _ _ _ Hi ltac:(lia)) as (Hi1 & _ & _ & Hr1 & _).
    set (b1 := r0 - r0 / r1 * r1) in *. set (c1 := t0 - r0 / r1 * t1) in *.
    destruct (Z_le_gt_dec b1 N) as [Hle1|Hgt1].
    { exists r1, b1, t1, c1. rewrite rr_loop_stop by lia. split; [reflexivity|]. split; [assumption|]. lia. }
    rewrite rr_loop_step by lia.
    destruct (step_inv _ _ _ _ _ _ Hi1 ltac:(lia)) as (Hi2 & He2 & _ & Hr2 & _).
    apply IH; [assumption|lia| |lia].
    rewrite Nat2Z.inj_succ, Z.pow_succ_r in Hlt by lia.
    assert (1 <= r1 / b1) by (apply Z.div_le_lower_bound; lia). nia.
Qed.

Lemma rr_loop_fuel m v u N : 0 < m -> 0 <= N < m -> 0 <= u < m -> (m | v - u) ->
  exists r0 r1 t0 t1, rr_loop (rr_fuel m) N m u 0 1 = Some (r1, t1) /\
     inv m v r0 r1 t1 t0 /\ r1 <= N /\ N < r0.
Proof.
  intros Hm HN Hu Hvu. unfold rr_fuel.
  replace (Z.to_nat (2 * Z.log2 m + 3)) with (S (2 * Z.to_nat (Z.log2 m + 1)))
    by (pose proof (Z.log2_nonneg m); lia).
  eapply rr_loop_ok with (n := Z.to_nat (Z.log2 m + 1)); [lia|apply inv_start; assumption|lia| |].
  - rewrite Z2Nat.id by (pose proof (Z.log2_nonneg m); lia). pose proof (log2_bound m Hm). lia.
  - reflexivity.
Qed.

Lemma inv_det m v r0 r1 t0 t1 : inv m v r0 r1 t1 t0 ->
  exists s, (s = 1 \/ s = -1) /\ t1 * r0 - t0 * r1 = s * m.
Proof.
  intros [Ha Hb Hc Hd Hs Hm Hdp Hg]. destruct Hs as [[H1 H2]|[H1 H2]].
  - exists 1. split; [auto|]. rewrite Z.abs_eq in Hm by lia. rewrite Z.abs_neq in Hm by lia. lia.
  - exists (-1). split; [auto|]. rewrite Z.abs_neq in Hm by lia. rewrite Z.abs_eq in Hm by lia. lia.
Qed.

(* soundness of the tail *)
Lemma rr_final_sound m v D r0 r1 t0 t1 n d : inv m v r0 r1 t1 t0 ->
  rr_final D r1 t1 = (true, n, d) ->
  cong m n (d * v) /\ Z.abs n <= r1 /\ 0 <= d <= D /\ Z.gcd n d = 1.
Proof.
  intros Hi. unfold rr_final.
  destruct (Z.ltb_spec t1 0); intros E; injection E as E <- <-;
    apply andb_true_iff in E; destruct E as [E1 E2]; apply Z.leb_le in E1; apply Z.eqb_eq in E2;
    destruct Hi.
  - repeat split; try lia. destruct i_ca as [q Hq]. exists q. lia.
  - repeat split; try lia. destruct i_ca as [q Hq]. exists (-q). lia.
Qed.

Lemma rr_final_pos m v D r0 r1 t0 t1 n d : 1 < m -> inv m v r0 r1 t1 t0 ->
  rr_final D r1 t1 = (true, n, d) -> 0 < d.
Proof.
  intros Hm Hi E. destruct (rr_final_sound _ _ _ _ _ _ _ _ _ Hi E) as (Hc & Hn & Hd & Hg).
  destruct (Z.eq_dec d 0) as [->|]; [|lia].
  rewrite Z.gcd_0_r in Hg.
  exfalso. assert (Hdv : (m | 1)).
  { rewrite <- Hg. apply Z.divide_abs_r. destruct Hc as [q Hq]. exists q. lia. }
  apply Z.divide_1_r in Hdv. lia.
Qed.

(* completeness: the lattice argument *)
Lemma rr_complete m v r0 r1 t0 t1 N D n d :
  0 < m -> inv m v r0 r1 t1 t0 -> r1 <= N -> N < r0 ->
  cong m n (d * v) -> Z.abs n <= N -> 0 < d <= D -> 2 * N * D < m -> Z.gcd n d = 1 ->
  rr_final D r1 t1 = (true, n, d).
Proof.
  intros Hm Hi HrN HN Hc Hn Hd HND Hg.
  destruct (inv_det _ _ _ _ _ _ Hi) as (s & Hs & Hdet).
  destruct Hi as [Ha Hb Hca Hda Hsgn Hmag Hdp Hgg].
  assert (Hal : exists al, n * t1 - d * r1 = al * m).
  { destruct Hc as [x Hx], Hca as [y Hy]. exists (x * t1 - - d * y).
    transitivity ((n - d * v) * t1 + d * (t1 * v - r1)); [ring|]. rewrite Hx, Hy. ring. }
  assert (Hbe : exists be, n * t0 - d * r0 = be * m).
  { destruct Hc as [x Hx], Hda as [y Hy]. exists (x * t0 - - d * y).
    transitivity ((n - d * v) * t0 + d * (t0 * v - r0)); [ring|]. rewrite Hx, Hy. ring. }
  destruct Hal as [al Hal], Hbe as [be Hbe].
  (* n = s*(al*r0 - be*r1), d = s*(al*t0 - be*t1) *)
  assert (Hn' : n = s * (al * r0 - be * r1)).
  { apply Z.mul_reg_r with m; [lia|].
    transitivity (s * ((al * m) * r0 - (be * m) * r1)); [|ring].
    rewrite <- Hal, <- Hbe.
    transitivity (n * (s * (t1 * r0 - t0 * r1))); [|ring]. rewrite Hdet.
    destruct Hs; subst s; ring. }
  assert (Hd' : d = s * (al * t0 - be * t1)).
  { apply Z.mul_reg_r with m; [lia|].
    transitivity (s * ((al * m) * t0 - (be * m) * t1)); [|ring].
    rewrite <- Hal, <- Hbe.
    transitivity (d * (s * (t1 * r0 - t0 * r1))); [|ring]. rewrite Hdet.
    destruct Hs; subst s; ring. }
  assert (Hal0 : al = 0).
  { destruct (Z.eq_dec al 0) as [|Hne]; [assumption|exfalso].
    assert (Hcase : al * be >= 0 /\ be <> 0 \/ al * be <= 0).
    { destruct (Z.eq_dec be 0) as [->|]; [right; lia|]. destruct (Z_le_gt_dec (al * be) 0); [right|left]; lia. }
    destruct Hcase as [[Hp Hbn]|Hp].
    - (* |d| >= |t1| *)
      assert (Ht1 : Z.abs t1 <= d).
      { clear - Hd Hd' Hsgn Hs Hne Hbn Hp Hm.
        assert (al > 0 /\ be > 0 \/ al < 0 /\ be < 0) by nia.
        destruct Hsgn as [[? ?]|[? ?]]; destruct Hs; subst s; destruct H as [[? ?]|[? ?]]; nia. }
      assert (Hbound : Z.abs (n * t1 - d * r1) < m).
      { assert (Z.abs (n * t1) <= N * D).
        { rewrite Z.abs_mul. apply Z.mul_le_mono_nonneg; lia. }
        assert (Z.abs (d * r1) <= N * D).
        { rewrite Z.abs_mul, (Z.abs_eq d), (Z.abs_eq r1) by lia. rewrite Z.mul_comm. apply Z.mul_le_mono_nonneg; lia. }
        clear - H H0 HND. lia. }
      rewrite Hal in Hbound. rewrite Z.abs_mul, (Z.abs_eq m) in Hbound by lia. clear - Hbound Hne Hm. nia.
    - (* |n| >= r0 > N *)
      assert (r0 <= Z.abs n); [|lia].
      clear - Hn' Hs Hne Hp Ha Hb.
      assert (al > 0 /\ be <= 0 \/ al < 0 /\ be >= 0) by nia.
      destruct Hs; subst s; destruct H as [[? ?]|[? ?]]; nia. }
  subst al. rewrite Z.mul_0_l in *. 
  assert (Hbe1 : Z.abs be = 1).
  { assert (Hdv : (be | Z.gcd n d)).
    { apply Z.gcd_greatest; [rewrite Hn'|rewrite Hd']; [exists (- s * r1)|exists (- s * t1)]; ring. }
    rewrite Hg in Hdv. apply Z.divide_1_r in Hdv. lia. }
  unfold rr_final.
  assert (Hcase : (t1 = d /\ r1 = n) \/ (t1 = - d /\ r1 = - n)).
  { clear - Hbe1 Hs Hn' Hd'. assert (be = 1 \/ be = -1) by lia.
    destruct Hs; subst s; destruct H; subst be; lia. }
  destruct Hcase as [[-> ->]|[-> ->]].
  - destruct (Z.ltb_spec d 0); [lia|]. rewrite Hg. replace (d <=? D) with true by lia. reflexivity.
  - destruct (Z.ltb_spec (-d) 0); [|lia]. rewrite !Z.opp_involutive, Hg. replace (d <=? D) with true by lia. reflexivity.
Qed.

(** add_loop *)
Lemma add_loop_ok m : 0 < m -> forall k u, - Z.of_nat k <= u < m ->
  exists u', add_loop (S k) u m = Some u' /\ 0 <= u' < m /\ (m | u - u').
Proof.
  intros Hm. induction k as [|k IH]; intros u Hu.
  - exists u. cbn [add_loop]. destruct (Z.ltb_spec u 0); [lia|]. repeat split; try lia. exists 0; lia.
  - remember (S k) as k1. cbn [add_loop]. destruct (Z.ltb_spec u 0).
    + subst k1. destruct (IH (u + m)) as (u' & H1 & H2 & [q Hq]); [lia|].
      exists u'. repeat split; try assumption; try lia. exists (q - 1). lia.
    + exists u. repeat split; try lia. exists 0; lia.
Qed.

Lemma rr_loop_any m v u N : 0 < m -> 0 <= N -> 0 <= u < m -> (m | v - u) ->
  exists r0 r1 t0 t1, rr_loop (rr_fuel m) N m u 0 1 = Some (r1, t1) /\
     inv m v r0 r1 t1 t0 /\ r1 <= N /\ r1 < m /\ (N < m -> N < r0).
Proof.
  intros Hm HN Hu Hd. destruct (Z_lt_ge_dec N m) as [Hlt|Hge].
  - destruct (rr_loop_fuel m v u N) as (r0 & r1 & t0 & t1 & E & Hi & H1 & H2); auto.
    exists r0, r1, t0, t1. repeat (split; [assumption|]). split; [lia|auto].
  - exists m, u, 0, 1. unfold rr_fuel.
    replace (Z.to_nat (2 * Z.log2 m + 3)) with (S (2 * Z.to_nat (Z.log2 m + 1)))
      by (pose proof (Z.log2_nonneg m); lia).
    rewrite rr_loop_stop by lia. split; [reflexivity|]. split; [apply inv_start; assumption|]. lia.
Qed.

Lemma ratrecon_total u m N D : 0 < m -> 0 <= N -> u < m ->
  exists r0 r1 t0 t1, ratrecon u m N D = Some (rr_final D r1 t1) /\
    inv m u r0 r1 t1 t0 /\ r1 <= N /\ r1 < m /\ (N < m -> N < r0).
Proof.
  intros Hm HN Hu. unfold ratrecon.
  destruct (add_loop_ok m Hm (Z.to_nat (-u)) u ltac:(lia)) as (u' & E & Hu' & Hd).
  rewrite E. cbn [obind].
  destruct (rr_loop_any m u u' N Hm HN Hu' Hd) as (r0 & r1 & t0 & t1 & E2 & Hi & H1 & H2 & H3).
  rewrite E2. cbn [obind]. exists r0, r1, t0, t1. auto.
Qed.

Lemma ratreconwden_total u m g N D : 0 < m -> 0 <= N ->
  exists r0 r1 t0 t1, ratreconwden u m g N D = Some (rr_final D r1 t1) /\
    inv m (u * g) r0 r1 t1 t0 /\ r1 <= N /\ r1 < m /\ (N < m -> N < r0).
Proof.
  intros Hm HN. unfold ratreconwden. destruct (Z.eqb_spec m 0); [lia|].
  pose proof (Z.mod_pos_bound (u mod m * g) m Hm) as Hb.
  destruct (rr_loop_any m (u * g) ((u mod m * g) mod m) N Hm HN Hb) as (r0 & r1 & t0 & t1 & E2 & Hi & H1 & H2 & H3).
  { rewrite Z.mul_mod_idemp_l by lia. apply mod_div; lia. }
  rewrite E2. cbn [obind]. exists r0, r1, t0, t1. auto.
Qed.

Lemma final_facts m v D N r0 r1 t0 t1 n d : 1 < m -> inv m v r0 r1 t1 t0 -> r1 <= N ->
  rr_final D r1 t1 = (true, n, d) ->
  cong m n (d * v) /\ Z.abs n <= N /\ 0 < d <= D /\ Z.gcd n d = 1.
Proof.
  intros Hm Hi H1 E.
  destruct (rr_final_sound _ _ _ _ _ _ _ _ _ Hi E) as (Hc & Hn & Hd & Hg).
  pose proof (rr_final_pos _ _ _ _ _ _ _ _ _ Hm Hi E).
  repeat split; try assumption; lia.
Qed.

Lemma ratrecon_sound u m N D n d : 1 < m -> 0 <= N -> u < m ->
  ratrecon u m N D = Some (true, n, d) ->
  cong m n (d * u) /\ Z.abs n <= N /\ 0 < d <= D /\ Z.gcd n d = 1.
Proof.
  intros Hm HN Hu E. destruct (ratrecon_total u m N D ltac:(lia) HN Hu) as (r0 & r1 & t0 & t1 & E' & Hi & H1 & H2 & _).
  rewrite E in E'. injection E' as E'. eapply final_facts; eauto.
Qed.

Lemma ratrecon_complete u m N D n d : 1 < m -> u < m ->
  cong m n (d * u) -> Z.abs n <= N -> 0 < d <= D -> 2 * N * D < m -> Z.gcd n d = 1 ->
  ratrecon u m N D = Some (true, n, d).
Proof.
  intros Hm Hu Hc Hn Hd HND Hg.
  destruct (ratrecon_total u m N D ltac:(lia) ltac:(lia) Hu) as (r0 & r1 & t0 & t1 & -> & Hi & H1 & H2 & H3).
  f_equal. eapply rr_complete; eauto; try lia. apply H3. nia.
Qed.

Lemma ratreconwden_sound u m g N D n d : 1 < m -> 0 <= N ->
  ratreconwden u m g N D = Some (true, n, d) ->
  cong m n (d * g * u) /\ Z.abs n <= N /\ 0 < d <= D /\ Z.gcd n d = 1.
Proof.
  intros Hm HN E. destruct (ratreconwden_total u m g N D ltac:(lia) HN) as (r0 & r1 & t0 & t1 & E' & Hi & H1 & H2 & _).
  rewrite E in E'. injection E' as E'.
  replace (d * g * u) with (d * (u * g)) by ring.
  eapply final_facts; eauto.
Qed.

Lemma ratreconwden_complete u m g N D n d : 1 < m ->
  cong m n (d * g * u) -> Z.abs n <= N -> 0 < d <= D -> 2 * N * D < m -> Z.gcd n d = 1 ->
  ratreconwden u m g N D = Some (true, n, d).
Proof.
  intros Hm Hc Hn Hd HND Hg.
  destruct (ratreconwden_total u m g N D ltac:(lia) ltac:(lia)) as (r0 & r1 & t0 & t1 & -> & Hi & H1 & H2 & H3).
  f_equal. replace (d * g * u) with (d * (u * g)) in Hc by ring.
  eapply rr_complete; eauto; try lia. apply H3. nia.
Qed.

(** mpq_reconstruct_2 *)
Lemma mpq_reconstruct_2_sound a m N D n d : 1 < m -> 0 <= N < m -> 1 <= D -> 0 <= a < m ->
  mpq_reconstruct_2 a m N D = Some (true, n, d) ->
  cong m n (d * a) /\ Z.abs n <= N /\ 0 < d <= D /\ Z.gcd n d = 1.
Proof.
  intros Hm HN HD Ha. unfold mpq_reconstruct_2.
  destruct (Z.leb_spec a N).
  { intros E; injection E as <- <-. repeat split; try lia. - exists 0; lia. - apply Z.gcd_1_r. }
  destruct (Z.leb_spec 0 (a - m)); [lia|]. cbn [andb].
  destruct (Z.ltb_spec (a - m) 0); [|lia]. cbn [andb].
  destruct (Z.leb_spec (- (a - m)) N).
  { intros E; injection E as <- <-. repeat split; try lia. - exists (-1); lia. - apply Z.gcd_1_r. }
  destruct (rr_loop_fuel m a a N ltac:(lia) HN Ha) as (r0 & r1 & t0 & t1 & E2 & Hi & H1' & H2').
  { exists 0; lia. }
  rewrite E2. cbn [obind]. intros E; injection E as E. eapply final_facts; eauto; lia.
Qed.

Lemma frac_unique m N D n d n' d' v : 0 < m -> 2 * N * D < m -> Z.abs n <= N -> 0 < d <= D ->
  Z.abs n' <= N -> 0 < d' <= D -> cong m n (d * v) -> cong m n' (d' * v) -> 
  Z.gcd n d = 1 -> Z.gcd n' d' = 1 -> n = n' /\ d = d'.
Proof.
  intros Hm HND Hn Hd Hn' Hd' [x Hx] [y Hy] Hg Hg'.
  assert (Hcr : n * d' - n' * d = (x * d' - y * d) * m).
  { transitivity ((n - d * v) * d' - (n' - d' * v) * d); [ring|]. rewrite Hx, Hy. ring. }
  assert (Hb1 : Z.abs (n * d') <= N * D) by (rewrite Z.abs_mul; apply Z.mul_le_mono_nonneg; lia).
  assert (Hb2 : Z.abs (n' * d) <= N * D) by (rewrite Z.abs_mul; apply Z.mul_le_mono_nonneg; lia).
  assert (Hz : n * d' = n' * d).
  { set (k := x * d' - y * d) in *. clearbody k. assert (-1 < k < 1) by nia. nia. }
  assert (Hdd : (d | d')).
  { apply Z.gauss with n; [exists n'; lia|]. rewrite Z.gcd_comm; assumption. }
  assert (Hdd' : (d' | d)).
  { apply Z.gauss with n'; [exists n; lia|]. rewrite Z.gcd_comm; assumption. }
  assert (d = d') by (apply Z.divide_antisym_nonneg; lia || assumption).
  subst d'. split; [nia|reflexivity].
Qed.

Lemma mpq_reconstruct_2_complete a m N D n d : 1 < m -> 0 <= N < m -> 0 <= a < m ->
  cong m n (d * a) -> Z.abs n <= N -> 0 < d <= D -> 2 * N * D < m -> Z.gcd n d = 1 ->
  mpq_reconstruct_2 a m N D = Some (true, n, d).
Proof.
  intros Hm HN Ha Hc Hn Hd HND Hg. unfold mpq_reconstruct_2.
  destruct (Z.leb_spec a N).
  { destruct (frac_unique m N D n d a 1 a) as [-> ->]; try lia; auto.
    - exists 0; lia. - apply Z.gcd_1_r. }
  destruct (Z.leb_spec 0 (a - m)); [lia|]. cbn [andb].
  destruct (Z.ltb_spec (a - m) 0); [|lia]. cbn [andb].
  destruct (Z.leb_spec (- (a - m)) N).
  { destruct (frac_unique m N D n d (a-m) 1 a) as [-> ->]; try lia; auto.
    - exists (-1); lia. - apply Z.gcd_1_r. }
  destruct (rr_loop_fuel m a a N ltac:(lia) HN Ha) as (r0 & r1 & t0 & t1 & E2 & Hi & H1' & H2').
  { exists 0; lia. }
  rewrite E2. cbn [obind]. f_equal. eapply rr_complete; eauto; lia.
Qed.

(** ** Standard hypotheses imply [good_moduli] *)
Lemma good_moduli_of : forall l m,
  Forall (fun cp => 1 < snd cp <= 2 ^ 64 /\ 0 <= fst cp < snd cp) l ->
  Forall (fun cp => Z.gcd m (snd cp) = 1) l ->
  ForallOrdPairs (fun a b => Z.gcd (snd a) (snd b) = 1) l ->
  good_moduli m l.
Proof.
  induction l as [|[c p] l IH]; intros m H1 H2 H3; cbn; [exact I|].
  apply Forall_cons_iff in H1. apply Forall_cons_iff in H2. destruct H1 as [H1 H1'], H2 as [H2 H2'].
  inversion H3 as [|? ? H3a H3b]; subst. cbn in *.
  repeat (split; [tauto|]). apply IH; auto.
  rewrite Forall_forall in *. intros [c' p'] Hin. cbn.
  specialize (H2' _ Hin). specialize (H3a _ Hin). cbn in *.
  apply Zgcd_1_rel_prime. apply Zgcd_1_rel_prime in H2'. apply Zgcd_1_rel_prime in H3a.
  apply rel_prime_sym, rel_prime_mult; apply rel_prime_sym; assumption.
Qed.

Lemma modulus_prod l : forall m, modulus m l = m * fold_right Z.mul 1 (map snd l).
Proof.
  unfold modulus. induction l as [|[c p] l IH]; intros m; cbn; [lia|]. rewrite IH. lia.
Qed.

(** End to end: from residues of n/d modulo enough primes back to n/d. *)
Lemma lift_fraction sign l c0 p0 n d N D y M :
  1 < p0 -> 0 <= c0 < p0 -> (sign = true -> 2 * c0 <= p0) ->
  good_moduli p0 l ->
  cong p0 (c0 * d) n -> (forall c p, In (c, p) l -> cong p (c * d) n) ->
  crt_fold sign (c0, p0) l = Some (y, M) ->
  Z.abs n <= N -> 0 < d <= D -> 2 * N * D < M -> Z.gcd n d = 1 ->
  ratrecon y M N D = Some (true, n, d).
Proof.
  intros Hp0 Hc0 Hs Hl H0 Hall E Hn Hd HND Hg.
  destruct (crt_fold_ok sign l c0 p0) as (y' & E' & HM & Hcan & H1 & H2); auto; try lia.
  { unfold canonical. destruct sign; [specialize (Hs eq_refl); lia|lia]. }
  rewrite E in E'. injection E' as -> ->.
  pose proof (modulus_multiple l p0) as Hdiv. apply Z.divide_pos_le in Hdiv; [|lia].
  apply ratrecon_complete; auto; try lia.
  - unfold canonical in Hcan. destruct sign; lia.
  - assert (Hy : cong (modulus p0 l) (y' * d) n).
    { apply cong_modulus; auto; try lia.
      - destruct H1 as [a Ha], H0 as [b Hb]. exists (a * d + b).
        transitivity ((y' - c0) * d + (c0 * d - n)); [ring|]. rewrite Ha, Hb. ring.
      - intros c p Hin. destruct (H2 _ _ Hin) as [a Ha], (Hall _ _ Hin) as [b Hb]. exists (a * d + b).
        transitivity ((y' - c) * d + (c * d - n)); [ring|]. rewrite Ha, Hb. ring. }
    destruct Hy as [q Hq]. exists (- q). lia.
Qed.

(** Full statement used by the property files. *)
Lemma crt_fold_spec (sign : bool) l c0 m x :
  0 < m -> (if sign then 2 * Z.abs c0 <= m else 0 <= c0 < m) -> -m < c0 < m -> (m | c0 - x) ->
  Forall (fun cp => 1 < snd cp <= 2 ^ 64 /\ fst cp = x mod snd cp) l ->
  Forall (fun cp => Z.gcd m (snd cp) = 1) l ->
  ForallOrdPairs (fun a b => Z.gcd (snd a) (snd b) = 1) l ->
  exists y, crt_fold sign (c0, m) l = Some (y, m * fold_right Z.mul 1 (map snd l)) /\
    (m * fold_right Z.mul 1 (map snd l) | y - x) /\
    (if sign then 2 * Z.abs y <= m * fold_right Z.mul 1 (map snd l)
     else 0 <= y < m * fold_right Z.mul 1 (map snd l)).
Proof.
  intros Hm Hcan Hr Hx H1 H2 H3.
  assert (Hg : good_moduli m l).
  { apply good_moduli_of; auto. rewrite Forall_forall in *. intros cp Hin.
    destruct (H1 _ Hin) as [Hp ->]. split; [assumption|]. apply Z.mod_pos_bound. lia. }
  destruct (crt_fold_ok sign l c0 m Hm Hr Hcan Hg) as (y & E & HM & Hc & Hy1 & Hy2).
  rewrite modulus_prod in *. exists y. split; [assumption|]. split; [|assumption].
  rewrite <- modulus_prod. apply cong_modulus; auto.
  - destruct Hy1 as [a Ha], Hx as [b Hb]. exists (a + b). lia.
  - intros c p Hin. rewrite Forall_forall in H1. destruct (H1 _ Hin) as [Hp Hc']. cbn in *. subst c.
    destruct (Hy2 _ _ Hin) as [a Ha]. destruct (mod_div x p ltac:(lia)) as [b Hb]. exists (a - b). lia.
Qed.

Lemma crt_recovers l c0 m x :
  0 < m -> 2 * Z.abs c0 <= m -> -m < c0 < m -> (m | c0 - x) ->
  Forall (fun cp => 1 < snd cp <= 2 ^ 64 /\ fst cp = x mod snd cp) l ->
  Forall (fun cp => Z.gcd m (snd cp) = 1) l ->
  ForallOrdPairs (fun a b => Z.gcd (snd a) (snd b) = 1) l ->
  2 * Z.abs x < m * fold_right Z.mul 1 (map snd l) ->
  crt_fold true (c0, m) l = Some (x, m * fold_right Z.mul 1 (map snd l)).
Proof.
  intros Hm H0 Hr Hx H1 H2 H3 Hlt.
  destruct (crt_fold_spec true l c0 m x) as (y & E & Hy & Hyb); auto.
  rewrite E. do 2 f_equal. apply (canonical_unique_signed (m * fold_right Z.mul 1 (map snd l))); auto; lia.
Qed.

Lemma ratrecon_ends u m N D : 0 < m -> 0 <= N -> u < m -> exists r, ratrecon u m N D = Some r.
Proof. intros Hm HN Hu. destruct (ratrecon_total u m N D Hm HN Hu) as (? & ? & ? & ? & E & _). eauto. Qed.

Lemma sqrt_half m : 8 <= m -> let N := Z.sqrt (m / 2) in
  2 <= N /\ 2 * (N * N) <= m /\ N < m /\ forall x, 2 * (x * x) <= m -> Z.abs x <= N.
Proof.
  intros Hm N. assert (H4 : 4 <= m / 2) by (apply Z.div_le_lower_bound; lia).
  pose proof (Z.sqrt_spec (m / 2) ltac:(lia)) as [Hs1 Hs2]. fold N in Hs1, Hs2.
  pose proof (Z.mul_div_le m 2 ltac:(lia)).
  assert (2 <= N) by (apply Z.sqrt_le_square; lia).
  repeat split; try nia.
  intros x Hx. apply Z.sqrt_le_square; try lia.
  apply Z.div_le_lower_bound; [lia|]. replace (Z.abs x * Z.abs x) with (x * x) by nia. assumption.
Qed.

Lemma add_loop_any a m : 0 < m -> a < m ->
  exists a', add_loop (S (Z.to_nat (- a))) a m = Some a' /\ 0 <= a' < m /\ (m | a - a').
Proof. intros Hm Ha. apply add_loop_ok; lia. Qed.

Lemma mpq_reconstruct_sound a m n d : 8 <= m -> a < m ->
  mpq_reconstruct_mpz a m = Some (true, n, d) ->
  (m | n - d * a) /\ 2 * (n * n) <= m /\ 0 < d /\ 2 * (d * d) <= m /\ Z.gcd n d = 1.
Proof.
  intros Hm Ha. unfold mpq_reconstruct_mpz.
  destruct (add_loop_any a m ltac:(lia) Ha) as (a' & -> & Ha' & [q Hq]). cbn [obind].
  destruct (sqrt_half m Hm) as (HN & HNm & HNlt & _). set (N := Z.sqrt (m / 2)) in *.
  intros E. destruct (mpq_reconstruct_2_sound a' m N N n d) as ([k Hk] & Hn & Hd & Hg); auto; try lia.
  repeat split; try lia; try nia.
  - exists (k - d * q). transitivity (n - d * a' - d * (a - a')); [ring|]. rewrite Hk, Hq. ring.
Qed.

Lemma mpq_reconstruct_complete a m n d : 8 <= m -> a < m -> Z.odd m = true ->
  (m | n - d * a) -> 2 * (n * n) <= m -> 0 < d -> 2 * (d * d) <= m -> Z.gcd n d = 1 ->
  mpq_reconstruct_mpz a m = Some (true, n, d).
Proof.
  intros Hm Ha Hodd [k Hk] Hn Hd Hdm Hg. unfold mpq_reconstruct_mpz.
  destruct (add_loop_any a m ltac:(lia) Ha) as (a' & -> & Ha' & [q Hq]). cbn [obind].
  destruct (sqrt_half m Hm) as (HN & HNm & HNlt & Hmax). set (N := Z.sqrt (m / 2)) in *.
  apply mpq_reconstruct_2_complete; auto; try lia.
  - exists (k + d * q). transitivity (n - d * a + d * (a - a')); [ring|]. rewrite Hk, Hq. ring.
  - pose proof (Hmax d Hdm). lia.
  - assert (2 * (N * N) <> m); [|lia]. intros E. rewrite <- E, Z.odd_mul in Hodd. discriminate.
Qed.

Lemma lift_fraction_spec (sign : bool) l c0 p0 n d N D y M :
  1 < p0 -> 0 <= c0 < p0 -> (sign = true -> 2 * c0 <= p0) ->
  Forall (fun cp => 1 < snd cp <= 2 ^ 64 /\ 0 <= fst cp < snd cp) l ->
  Forall (fun cp => Z.gcd p0 (snd cp) = 1) l ->
  ForallOrdPairs (fun a b => Z.gcd (snd a) (snd b) = 1) l ->
  (p0 | c0 * d - n) -> (forall c p, In (c, p) l -> (p | c * d - n)) ->
  crt_fold sign (c0, p0) l = Some (y, M) ->
  Z.abs n <= N -> 0 < d <= D -> 2 * N * D < M -> Z.gcd n d = 1 ->
  ratrecon y M N D = Some (true, n, d).
Proof. intros. eapply lift_fraction with (l := l) (c0 := c0) (p0 := p0); eauto. apply good_moduli_of; auto. Qed.
