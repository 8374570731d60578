(** The root bound, the conversion of the entries, and soundness of the whole isolation. *)
From Coq Require Import ZArith List Arith Lia Reals Lra Bool.
From Verif Require Import PolySpec IsolSpec ModInvModel TaylorModel DescModel IsolModel.
From Verif Require Import PolyProofs TaylorProofs DescProofs DescLoopProofs RootProofs IsolProofs IsolBisProofs.
Import ListNotations.
Open Scope R_scope.

Lemma p2_le a b : (a <= b)%Z -> p2 a <= p2 b.
Proof.
  intros H. replace b with (a + (b - a))%Z by ring. rewrite p2_add, <- (p2_IZR (b - a)) by lia. pose proof (p2_pos a).
  assert (1 <= IZR (2 ^ (b - a))). { apply IZR_le. pose proof (Z.pow_pos_nonneg 2 (b - a)). lia. }
  rewrite <- (Rmult_1_r (p2 a)) at 1. apply Rmult_le_compat_l; lra.
Qed.
Lemma p2_pow M d : p2 (M * Z.of_nat d) = p2 M ^ d.
Proof.
  induction d as [|d IH]; [rewrite Z.mul_0_r; reflexivity|]. rewrite Nat2Z.inj_succ, Z.mul_succ_r, p2_add, IH. cbn [pow]. ring.
Qed.
Lemma sizeb_spec a : (Z.abs a < 2 ^ sizeb a /\ (a <> 0 -> 2 ^ (sizeb a - 1) <= Z.abs a) /\ 1 <= sizeb a)%Z.
Proof.
  split; [|split; [|apply sizeb_pos]]; unfold sizeb; destruct (Z.eqb_spec a 0) as [->|N].
  - reflexivity.
  - pose proof (Z.log2_spec (Z.abs a) ltac:(lia)) as K. rewrite <- Z.add_1_r in K. apply K.
  - contradiction.
  - intros _. pose proof (Z.log2_spec (Z.abs a) ltac:(lia)) as K. rewrite Z.add_simpl_r. apply K.
Qed.
Lemma sizeb_gt a : Rabs (IZR a) < p2 (sizeb a) /\ (1 <= sizeb a)%Z.
Proof.
  rewrite <- abs_IZR. pose proof (sizeb_spec a) as K. split; [|lia]. rewrite <- p2_IZR by lia. apply IZR_lt. apply K.
Qed.
Lemma sizeb_le a : a <> 0%Z -> p2 (sizeb a - 1) <= Rabs (IZR a).
Proof. intros H. rewrite <- abs_IZR. pose proof (sizeb_spec a) as K. rewrite <- p2_IZR by lia. apply IZR_le. apply K. assumption. Qed.

(** ** bound_roots *)
Lemma bound_pow2_ok a l d : (0 < d)%Z -> (sizeb a - l <= bound_pow2 a l d * d)%Z.
Proof.
  intros Hd. unfold bound_pow2. set (p := (sizeb a - l)%Z). destruct (Z.ltb_spec 0 p) as [B|B].
  - pose proof (Z.div_mod p d ltac:(lia)). pose proof (Z.mod_pos_bound p d Hd). destruct (Z.eqb_spec (p / d * d) p); nia.
  - pose proof (Z.div_mod (- p) d ltac:(lia)). pose proof (Z.mod_pos_bound (- p) d Hd). destruct (Z.eqb_spec (- (- p / d) * d) p); nia.
Qed.
(** Positions count down to 1. *)
Fixpoint bounded (u : list Z) (lead l M : Z) : Prop :=
  match u with
  | [] => True
  | a :: u' => (Z.sgn lead = Z.sgn a \/ (sizeb a - l <= M * Z.of_nat (length u))%Z) /\ bounded u' lead l M
  end.
Lemma bounded_mono u lead l M M' : (M <= M')%Z -> bounded u lead l M -> bounded u lead l M'.
Proof.
  intros H. induction u as [|a u IH]; [auto|]. intros [H1 H2]. split; [|apply IH; assumption].
  destruct H1 as [H1|H1]; [auto|right]. nia.
Qed.
Lemma bound_loop_ok lead l u : forall M b b' M', bound_loop u (Z.of_nat (length u)) lead l M b = (b', M') ->
  (M <= M')%Z /\ bounded u lead l M' /\ (b' = true -> b = true /\ Forall (fun a => Z.sgn lead = Z.sgn a) u).
Proof.
  induction u as [|a u IH]; intros M b b' M' H; cbn [bound_loop] in H.
  - injection H as <- <-. split; [lia|]. split; [exact I|]. intros ->. split; [reflexivity|constructor].
  - replace (Z.of_nat (length (a :: u)) - 1)%Z with (Z.of_nat (length u)) in H by (cbn [length]; lia).
    destruct (Z.eqb_spec (Z.sgn lead) (Z.sgn a)) as [E|E].
    + destruct (IH _ _ _ _ H) as (H1 & H2 & H3). split; [assumption|]. split; [split; [left; assumption|assumption]|].
      intros K. destruct (H3 K) as [K1 K2]. split; [assumption|]. constructor; assumption.
    + set (p := bound_pow2 a l (Z.of_nat (length (a :: u)))) in *.
      destruct (IH _ _ _ _ H) as (H1 & H2 & H3).
      assert (M <= M' /\ p <= M')%Z as [Hm Hp] by (destruct (Z.ltb_spec M p); lia).
      split; [assumption|]. split; [split; [right|assumption]|].
      * pose proof (bound_pow2_ok a l (Z.of_nat (length (a :: u))) ltac:(cbn [length]; lia)) as B. fold p in B. nia.
      * intros K. destruct (H3 K) as [K1 _]. discriminate.
Qed.

Lemma bounded_eval lead l M u x : lead <> 0%Z -> p2 l <= Rabs (IZR lead) -> bounded u lead l M -> p2 (M + 1) <= x ->
  Rabs (IZR lead) * (x / 2) ^ length u <= IZR (Z.sgn lead) * zeval (u ++ [lead]) x.
Proof.
  intros Hl HL HB Hx. pose proof (p2_pos (M + 1)) as P0.
  induction u as [|a u IH].
  - cbn [app length pow]. rewrite zeval_cons, zeval_nil, Rmult_0_r, Rplus_0_r, <- mult_IZR, Rmult_1_r, <- abs_IZR. apply IZR_le. pose proof (Z.sgn_abs lead). pose proof (Z.sgn_spec lead). nia.
  - destruct HB as [Ha HB]. specialize (IH HB). cbn [app length pow]. rewrite zeval_cons.
    set (s := IZR (Z.sgn lead)) in *. set (L := Rabs (IZR lead)) in *. set (d := length u) in *. set (V := zeval (u ++ [lead]) x) in *.
    assert (L0 : 0 < L) by (pose proof (p2_pos l); lra).
    assert (X0 : 0 < x) by lra.
    assert (Hd : 0 < (x / 2) ^ d) by (apply pow_lt; lra).
    assert (Hs : - (L * (x / 2) ^ S d) <= s * IZR a).
    { destruct Ha as [Ha|Ha].
      - assert (0 <= s * IZR a). { unfold s. rewrite <- mult_IZR. apply IZR_le. rewrite Ha. pose proof (Z.sgn_spec a). nia. }
        assert (0 < L * (x / 2) ^ S d) by (apply Rmult_lt_0_compat; [assumption|apply pow_lt; lra]). lra.
      - destruct (sizeb_gt a) as [A1 A2]. apply p2_le in Ha. replace (sizeb a - l)%Z with (sizeb a + - l)%Z in Ha by ring. rewrite p2_add, p2_inv in Ha.
        cbn [length] in Ha. rewrite p2_pow in Ha. fold d in Ha. pose proof (p2_pos l) as PL.
        assert (A3 : p2 (sizeb a) <= p2 l * p2 M ^ S d).
        { replace (p2 (sizeb a)) with (p2 l * (p2 (sizeb a) * / p2 l)) by (field; lra). apply Rmult_le_compat_l; [lra|assumption]. }
        assert (A4 : p2 M ^ S d <= (x / 2) ^ S d).
        { apply pow_incr. split; [left; apply p2_pos|]. rewrite p2_add in Hx. change (p2 1) with (2 * 1) in Hx. lra. }
        assert (A5 : p2 l * p2 M ^ S d <= L * (x / 2) ^ S d) by (apply Rmult_le_compat; [lra|apply pow_le; left; apply p2_pos|assumption|assumption]).
        assert (A6 : - Rabs (IZR a) <= s * IZR a).
        { unfold s. rewrite <- mult_IZR, <- abs_IZR, <- opp_IZR. apply IZR_le. pose proof (Z.sgn_spec lead). pose proof (Z.abs_spec a). nia. }
        lra. }
    assert (Hv : L * (x / 2) ^ d * x <= s * V * x) by (apply Rmult_le_compat_r; lra).
    cbn [pow] in Hs. replace (s * (IZR a + x * V)) with (s * IZR a + s * V * x) by ring.
    replace (L * (x / 2 * (x / 2) ^ d)) with (L * (x / 2) ^ d * x / 2) in * by field. lra.
Qed.

Lemma same_sign_eval lead u x : lead <> 0%Z -> Forall (fun a => Z.sgn lead = Z.sgn a) u -> 0 <= x ->
  0 < IZR (Z.sgn lead) * zeval (u ++ [lead]) x.
Proof.
  intros Hl HF Hx. induction HF as [|a u Ha HF IH].
  - cbn [app]. rewrite zeval_cons, zeval_nil, Rmult_0_r, Rplus_0_r, <- mult_IZR. apply IZR_lt. pose proof (Z.sgn_spec lead). nia.
  - cbn [app]. rewrite zeval_cons. assert (0 < IZR (Z.sgn lead) * IZR a). { rewrite <- mult_IZR. apply IZR_lt. rewrite Ha. pose proof (Z.sgn_spec a). pose proof (Z.sgn_spec lead). nia. }
    assert (0 <= x * (IZR (Z.sgn lead) * zeval (u ++ [lead]) x)) by (apply Rmult_le_pos; lra). lra.
Qed.

(** No root at or above 2^b: the sign there is that of the leading coefficient. *)
Theorem bound_roots_ok u deg : length u = S deg -> nth deg u 0%Z <> 0%Z ->
  exists b, bound_roots u deg = Some b /\ forall x, p2 b <= x -> 0 < IZR (Z.sgn (nth deg u 0%Z)) * zeval u x.
Proof.
  intros Hl Hd. unfold bound_roots. rewrite (getz_some u deg) by lia. cbn [obind]. set (lead := nth deg u 0%Z) in *.
  assert (Eu : u = firstn deg u ++ [lead]).
  { rewrite <- (firstn_skipn deg u) at 1. f_equal. assert (K : length (skipn deg u) = 1%nat) by (rewrite skipn_length; lia).
    destruct (skipn deg u) as [|z [|]] eqn:E; try discriminate. f_equal. unfold lead. rewrite <- (firstn_skipn deg u), app_nth2; rewrite firstn_length_le by lia; [|lia]. rewrite Nat.sub_diag, E. reflexivity. }
  assert (Lf : length (firstn deg u) = deg) by (apply firstn_length_le; lia).
  destruct (bound_loop (firstn deg u) (Z.of_nat deg) lead (sizeb lead - 1) (- (sizeb lead - 1)) true) as [b' M'] eqn:E.
  rewrite <- Lf in E at 2. destruct (bound_loop_ok _ _ _ _ _ _ _ E) as (_ & HB & HT). eexists. split; [reflexivity|]. cbn [fst snd].
  intros x Hx. destruct b'.
  - rewrite Eu. apply same_sign_eval; [assumption|apply HT; reflexivity|]. pose proof (p2_pos (-1)). lra.
  - rewrite Eu. apply Rlt_le_trans with (Rabs (IZR lead) * (x / 2) ^ length (firstn deg u)).
    + apply Rmult_lt_0_compat; [apply Rabs_pos_lt; intros N; apply eq_IZR in N; contradiction|]. apply pow_lt. pose proof (p2_pos (M' + 1)). lra.
    + apply bounded_eval with (l := (sizeb lead - 1)%Z) (M := M'); try assumption. apply sizeb_le. assumption.
Qed.
(** For a linear polynomial the root is below half the bound. *)
Lemma bound_linear a0 lead b : lead <> 0%Z -> bound_roots [a0; lead] 1 = Some b -> root [a0; lead] (p2 b / 2) -> a0 = 0%Z.
Proof.
  intros Hl. unfold bound_roots. cbn [getz nth_error obind firstn bound_loop]. intros H R. unfold root in R. rewrite !zeval_cons, zeval_nil in R.
  assert (K : IZR a0 = - (p2 b / 2 * IZR lead)) by lra. pose proof (p2_pos b) as Pb.
  destruct (Z.eqb_spec (Z.sgn lead) (Z.sgn a0)) as [E|E]; cbn [fst snd] in H; injection H as <-.
  - exfalso. assert (0 < IZR a0 * IZR lead). { rewrite <- mult_IZR. apply IZR_lt. pose proof (Z.sgn_spec a0). pose proof (Z.sgn_spec lead). nia. }
    rewrite K in H. assert (0 < IZR lead * IZR lead). { rewrite <- mult_IZR. apply IZR_lt. nia. }
    assert (0 < p2 (-1) / 2 * (IZR lead * IZR lead)) by (apply Rmult_lt_0_compat; lra). lra.
  - destruct (Z.eq_dec a0 0) as [|N]; [assumption|exfalso]. change (Z.of_nat 1) with 1%Z in *.
    set (p := bound_pow2 a0 (sizeb lead - 1) 1) in *. set (M := if Z.ltb _ p then p else _) in *.
    assert (HM : (sizeb a0 - (sizeb lead - 1) <= M)%Z).
    { pose proof (bound_pow2_ok a0 (sizeb lead - 1) 1 ltac:(lia)) as B. fold p in B. unfold M. destruct (Z.ltb_spec (- (sizeb lead - 1)) p); lia. }
    apply p2_le in HM. replace (sizeb a0 - (sizeb lead - 1))%Z with (sizeb a0 + - (sizeb lead - 1))%Z in HM by ring. rewrite p2_add, p2_inv in HM.
    pose proof (sizeb_le lead Hl) as SL. destruct (sizeb_gt a0) as [SA _]. pose proof (p2_pos (sizeb lead - 1)) as PL. set (q := p2 (sizeb lead - 1)) in *.
    assert (p2 (sizeb a0) <= q * p2 M). { replace (p2 (sizeb a0)) with (q * (p2 (sizeb a0) * / q)) by (field; lra). apply Rmult_le_compat_l; lra. }
    assert (q * p2 M <= Rabs (IZR lead) * p2 M) by (apply Rmult_le_compat_r; [left; apply p2_pos|assumption]).
    rewrite K, Rabs_Ropp, Rabs_mult, p2_add in SA. change (p2 1) with (2 * 1) in SA. replace (p2 M * (2 * 1) / 2) with (p2 M) in SA by field.
    rewrite (Rabs_right (p2 M)) in SA; [|pose proof (p2_pos M); lra]. lra.
Qed.

(** ** merge_root *)
Definition sx (neg : bool) (x : R) : R := if neg then - x else x.
Definition record_set (i : interval) : R -> Prop := in_record (numer i) (ik i) (isexact i).
Lemma div_lt a b c : 0 < c -> (a < b / c <-> a * c < b).
Proof. intros H. assert (E : b = b / c * c) by (field; lra). split; intros K; [rewrite E; apply Rmult_lt_compat_r; assumption|]. apply Rmult_lt_reg_r with c; [assumption|]. lra. Qed.
Lemma lt_div a b c : 0 < c -> (b / c < a <-> b < a * c).
Proof. intros H. assert (E : b = b / c * c) by (field; lra). split; intros K; [rewrite E; apply Rmult_lt_compat_r; assumption|]. apply Rmult_lt_reg_r with c; [assumption|]. lra. Qed.
Lemma merge_root_set neg b e x : record_set (merge_root neg b e) x <-> mem e (sx neg x / p2 b).
Proof.
  unfold record_set, merge_root, mem, in_record. pose proof (p2_pos b) as Pb.
  set (W := p2 (b - ek e)). assert (W0 : 0 < W) by apply p2_pos.
  assert (LW : lo e * p2 b = IZR (ec e) * W). { unfold lo, W. replace (b - ek e)%Z with (- ek e + b)%Z by ring. rewrite p2_add. ring. }
  assert (HW : hi e * p2 b = (IZR (ec e) + 1) * W). { unfold hi, W. replace (b - ek e)%Z with (- ek e + b)%Z by ring. rewrite p2_add. ring. }
  assert (Ex : sx neg x / p2 b = lo e <-> sx neg x = IZR (ec e) * W).
  { rewrite <- LW. split; intros K; [rewrite <- K; field; lra|rewrite K; field; lra]. }
  assert (In' : lo e < sx neg x / p2 b < hi e <-> IZR (ec e) * W < sx neg x < (IZR (ec e) + 1) * W).
  { rewrite (div_lt _ _ _ Pb), (lt_div _ _ _ Pb), LW, HW. tauto. }
  destruct (Z.leb_spec (ek e) b) as [B|B]; cbn [numer ik isexact]; destruct (exact e).
  - rewrite Ex, mult_IZR, p2_IZR by lia. fold W. change (- 0)%Z with 0%Z. rewrite p2_0. destruct neg; cbn [sx]; rewrite ?opp_IZR; split; intros; lra.
  - rewrite In', mult_IZR, p2_IZR by lia. fold W. destruct (Z.leb_spec 0 (ek e - b)) as [B'|B'].
    + assert (E0 : (ek e - b = 0)%Z) by lia. assert (W1 : W = 1) by (unfold W; replace (b - ek e)%Z with 0%Z by lia; reflexivity). rewrite E0, W1. change (- 0)%Z with 0%Z. rewrite p2_0.
      destruct neg; cbn [sx]; rewrite ?minus_IZR, ?opp_IZR; split; intros; lra.
    + replace (- (ek e - b))%Z with (b - ek e)%Z by ring. fold W. destruct neg; cbn [sx]; rewrite ?minus_IZR, ?opp_IZR; split; intros; lra.
  - rewrite Ex. replace (- (ek e - b))%Z with (b - ek e)%Z by ring. fold W. destruct neg; cbn [sx]; rewrite ?opp_IZR; split; intros; lra.
  - rewrite In'. destruct (Z.leb_spec 0 (ek e - b)) as [B'|B']; [|lia]. replace (- (ek e - b))%Z with (b - ek e)%Z by ring. fold W.
    destruct neg; cbn [sx]; rewrite ?minus_IZR, ?opp_IZR; split; intros; lra.
Qed.

(** ** One side *)
Lemma negate_odd_eval u : forall o x, zeval (negate_odd o u) x = (if o then - zeval u (- x) else zeval u (- x)).
Proof.
  induction u as [|a u IH]; intros o x; cbn [negate_odd]; rewrite ?zeval_nil, ?zeval_cons; [destruct o; ring|].
  rewrite IH. destruct o; cbn [negb]; rewrite ?opp_IZR; ring.
Qed.
Lemma negate_odd_length u : forall o, length (negate_odd o u) = length u.
Proof. induction u as [|a u IH]; intros o; cbn [negate_odd length]; [reflexivity|]. rewrite IH. reflexivity. Qed.
Lemma negate_odd_last u : forall o, last u 0%Z <> 0%Z -> last (negate_odd o u) 0%Z <> 0%Z.
Proof.
  induction u as [|a [|b u] IH]; intros o H; [assumption| |].
  - cbn [negate_odd last] in *. destruct o; lia.
  - cbn [negate_odd] in *. apply (IH (negb o)). exact H.
Qed.
Lemma negate_odd_lead u o : lead_ok u -> lead_ok (negate_odd o u).
Proof. intros [H1 H2]. split; [destruct u; [contradiction|discriminate]|apply negate_odd_last; assumption]. Qed.
Lemma negate_odd_0 u : nth 0 (negate_odd false u) 0%Z = nth 0 u 0%Z.
Proof. destruct u; reflexivity. Qed.

(** The entries seen on the polynomial before rescaling. *)
Definition scaled (b : Z) (e : entry) (x : R) : Prop := mem e (x / p2 b).
Record side (u : list Z) (b : Z) (out : list entry) : Prop := {
  s_in : forall e x, In e out -> scaled b e x -> 0 < x;
  s_one : forall e, In e out -> exists x, scaled b e x /\ root u x /\ forall y, scaled b e y -> root u y -> y = x;
  s_ord : ForallOrdPairs (fun e1 e2 => forall x y, scaled b e1 x -> scaled b e2 y -> x < y) out;
  s_cover : forall x, 0 < x -> root u x -> exists e, In e out /\ scaled b e x;
  s_ends : forall e, In e out -> exact e = false -> forall z, z = lo e * p2 b \/ z = hi e * p2 b ->
     0 <= z /\ (root u z -> exists e', In e' out /\ exact e' = true /\ lo e' * p2 b = z)
}.

(** The first node. *)
Lemma start u : lead_ok u -> (2 <= length u)%nat -> nth 0 u 0%Z <> 0%Z ->
  exists b v f, bound_roots u (length u - 1) = Some b /\ rescale_normalize u b = Some v /\ init_flags (length u - 1) = Some f /\
    node_ok (map IZR v) 0 0 v f /\ inv (map IZR u) 0 (p2 b) v /\ (forall x, p2 b <= x -> ~ root u x).
Proof.
  intros Hl H2 H0. assert (Ld : length u = S (length u - 1)) by lia.
  destruct (bound_roots_ok u (length u - 1) Ld) as (b & Eb & Hb); [apply (lead_ok_nth u _ Ld); assumption|].
  assert (I0 : inv (map IZR u) 0 1 u).
  { split; [rewrite map_length; reflexivity|]. split; [assumption|]. exists 1. split; [lra|]. intros x. rewrite Rplus_0_l, !Rmult_1_l. reflexivity. }
  destruct (rescale_inv _ _ _ _ b I0) as (v & Ev & Iv). rewrite Rmult_1_l in Iv.
  destruct (init_flags_ok (length u - 1) ltac:(lia)) as (f & Ef & Ff).
  assert (Nr : forall x, p2 b <= x -> ~ root u x). { intros x Hx R. specialize (Hb x Hx). unfold root in R. rewrite R in Hb. lra. }
  exists b, v, f. repeat (split; [assumption|]). split; [|split; assumption].
  pose proof Iv as (Lv & LLv & _). rewrite map_length in Lv.
  unfold node_ok. rewrite map_length, Lv. split; [assumption|]. unfold wd. cbn [pow]. rewrite Rinv_1, Rmult_0_l, Rplus_0_l.
  split; [split; [rewrite map_length; reflexivity|split; [assumption|]]|].
  { exists 1. split; [lra|]. intros x. rewrite Rplus_0_l, !Rmult_1_l. reflexivity. }
  split; [assumption|]. split.
  - intros N. change (root v 0) in N. apply (inv_root _ _ _ _ _ Iv) in N. rewrite Rmult_0_r, Rplus_0_l in N. change (zeval u 0 = 0) in N. rewrite zeval_0 in N. apply eq_IZR in N. contradiction.
  - intros N. change (root v 1) in N. apply (inv_root _ _ _ _ _ Iv) in N. rewrite Rmult_1_r, Rplus_0_l in N. apply (Nr (p2 b)); [lra|assumption].
Qed.

Lemma isolate_side_sound fuel neg u l : lead_ok u -> nth 0 u 0%Z <> 0%Z -> isolate_side fuel neg u = Some l ->
  exists b out, l = map (merge_root neg b) out /\ side u b out.
Proof.
  intros Hl H0 H. unfold isolate_side in H. destruct (Nat.eqb_spec (length u - 1) 0) as [D|D].
  - injection H as <-. exists 0%Z, []. split; [reflexivity|]. split.
    + intros e x [].
    + intros e [].
    + constructor.
    + intros x _ R. exfalso. destruct u as [|a [|]]; [destruct Hl as [[] _]; reflexivity| |cbn in D; lia]. unfold root in R. rewrite zeval_cons, zeval_nil, Rmult_0_r, Rplus_0_r in R. apply eq_IZR in R. contradiction.
    + intros e [].
  - destruct (start u Hl ltac:(lia) H0) as (b & v & f & Eb & Ev & Ef & Nd & Iv & Nr). rewrite Eb in H. cbn [obind] in H. rewrite Ev in H. cbn [obind] in H. rewrite Ef in H. cbn [obind] in H.
    destruct (bisect fuel v f 0 0) as [[[[u' f'] ok] out]|] eqn:B; [|discriminate]. cbn [obind] in H. injection H as <-.
    exists b, out. split; [reflexivity|]. destruct (bisect_sound _ _ _ _ _ _ _ Nd B) as (P' & rs & R & _ & C).
    unfold wd in R, C. cbn [pow] in R, C. rewrite Rinv_1, Rmult_0_l, Rplus_0_l in R, C.
    pose proof (p2_pos b) as Pb.
    assert (Rt : forall x, root u x <-> peval (map IZR v) (x / p2 b) = 0).
    { intros x. change (peval (map IZR v) (x / p2 b) = 0) with (root v (x / p2 b)). rewrite (inv_root _ _ _ _ _ Iv). replace (0 + p2 b * (x / p2 b)) with x by (field; lra). reflexivity. }
    assert (Sc : forall x, x / p2 b * p2 b = x) by (intros; field; lra).
    assert (Sc' : forall x, x * p2 b / p2 b = x) by (intros; field; lra).
    split.
    + intros e x He Hm. pose proof (r_in _ _ _ _ _ _ R e _ He Hm) as K. rewrite <- (Sc x). apply Rmult_lt_0_compat; lra.
    + intros e He. destruct (r_one _ _ _ _ _ _ R e He) as (x & Hx & Zx & Ux). exists (x * p2 b). unfold scaled. rewrite Sc'. split; [assumption|].
      split; [apply Rt; rewrite Sc'; assumption|]. intros y Hy Ry. apply Rt in Ry. rewrite <- (Ux _ Hy Ry). symmetry. apply Sc.
    + pose proof (r_ord _ _ _ _ _ _ R) as O. clear - O Pb Sc. induction O as [|e l F O IH]; constructor; [|assumption].
      eapply Forall_impl; [|exact F]. cbv beta. intros e' K x y Hx Hy. specialize (K _ _ Hx Hy). rewrite <- (Sc x), <- (Sc y). apply Rmult_lt_compat_r; assumption.
    + intros x Hx Rx. assert (x < p2 b) by (destruct (Rlt_le_dec x (p2 b)); [assumption|exfalso; eapply Nr; eassumption]).
      apply Rt in Rx. assert (0 < x / p2 b < 1).
      { rewrite (div_lt _ _ _ Pb), (lt_div _ _ _ Pb). lra. }
      destruct ok as [k'|]; [destruct C as (_ & _ & C); apply C; assumption|]. apply C; [lra|assumption].
    + intros e He Ex z Hz. assert (Hz' : z / p2 b = lo e \/ z / p2 b = hi e) by (destruct Hz as [->| ->]; rewrite Sc'; auto).
      destruct (r_ends _ _ _ _ _ _ R e He Ex _ Hz') as [B1 B2]. split; [rewrite <- (Sc z); apply Rmult_le_pos; lra|].
      intros Rz. apply Rt in Rz. destruct (B2 Rz) as (e' & He' & Ex' & El). exists e'. rewrite El, Sc. auto.
Qed.

(** ** The whole isolation *)
Lemma FOP_map {A B} (g : A -> B) (R : B -> B -> Prop) l : ForallOrdPairs (fun x y => R (g x) (g y)) l -> ForallOrdPairs R (map g l).
Proof. induction 1 as [|a l F O IH]; cbn [map]; constructor; [|assumption]. apply Forall_map. assumption. Qed.
Lemma FOP_rev {A} (R : A -> A -> Prop) l : ForallOrdPairs R l -> ForallOrdPairs (fun x y => R y x) (rev l).
Proof.
  induction 1 as [|a l F O IH]; cbn [rev]; [constructor|]. apply FOP_app; [assumption|repeat constructor|].
  intros x y Hx [<-|[]]. rewrite <- in_rev in Hx. rewrite Forall_forall in F. apply F. assumption.
Qed.

(** End points of the records. *)
Definition record_lo (i : interval) : R := if Z.leb 0 (ik i) then IZR (numer i) * p2 (- ik i) else IZR (numer i).
Definition record_hi (i : interval) : R := if Z.leb 0 (ik i) then (IZR (numer i) + 1) * p2 (- ik i) else IZR (numer i) + p2 (- ik i).

Lemma merge_ends neg b e : exact e = false ->
  isexact (merge_root neg b e) = false /\
  if neg then record_lo (merge_root neg b e) = - (hi e * p2 b) /\ record_hi (merge_root neg b e) = - (lo e * p2 b)
  else record_lo (merge_root neg b e) = lo e * p2 b /\ record_hi (merge_root neg b e) = hi e * p2 b.
Proof.
  intros Ex. unfold merge_root, record_lo, record_hi. rewrite Ex.
  set (W := p2 (b - ek e)).
  assert (LW : lo e * p2 b = IZR (ec e) * W). { unfold lo, W. replace (b - ek e)%Z with (- ek e + b)%Z by ring. rewrite p2_add. ring. }
  assert (HW : hi e * p2 b = (IZR (ec e) + 1) * W). { unfold hi, W. replace (b - ek e)%Z with (- ek e + b)%Z by ring. rewrite p2_add. ring. }
  rewrite LW, HW. destruct (Z.leb_spec (ek e) b) as [B|B]; cbn [numer ik isexact]; (split; [reflexivity|]).
  - rewrite mult_IZR, p2_IZR by lia. fold W. destruct (Z.leb_spec 0 (ek e - b)) as [B'|B'].
    + assert (W1 : W = 1) by (unfold W; replace (b - ek e)%Z with 0%Z by lia; reflexivity). replace (- (ek e - b))%Z with 0%Z by lia. rewrite p2_0, W1.
      destruct neg; rewrite ?minus_IZR, ?opp_IZR; split; ring.
    + replace (- (ek e - b))%Z with (b - ek e)%Z by ring. fold W. destruct neg; rewrite ?minus_IZR, ?opp_IZR; split; ring.
  - destruct (Z.leb_spec 0 (ek e - b)) as [B'|B']; [|lia]. replace (- (ek e - b))%Z with (b - ek e)%Z by ring. fold W.
    destruct neg; rewrite ?minus_IZR, ?opp_IZR; split; ring.
Qed.
Lemma merge_exact neg b e : exact e = true -> isexact (merge_root neg b e) = true /\ record_set (merge_root neg b e) (sx neg (lo e * p2 b)).
Proof.
  intros Ex. split; [unfold merge_root; destruct (ek e <=? b)%Z; assumption|]. apply merge_root_set. unfold mem. rewrite Ex.
  pose proof (p2_pos b). destruct neg; cbn [sx]; field; lra.
Qed.

Definition ends_ok (p : list Z) (l : list interval) : Prop :=
  forall i, In i l -> isexact i = false -> forall z, z = record_lo i \/ z = record_hi i -> root p z -> exists j, In j l /\ isexact j = true /\ record_set j z.

Theorem isolate_sound fuel p l : lead_ok p -> isolate fuel p = Some l -> isolates (zeval p) (map record_set l) /\ ends_ok p l.
Proof.
  intros Hl H. unfold isolate in H. rewrite (getz_0 p Hl) in H. cbn [obind] in H.
  match type of H with obind ?X _ = _ => destruct X as [[u zero]|] eqn:Ez; [|discriminate] end. cbn [obind] in H.
  assert (G : lead_ok u /\ nth 0 u 0%Z <> 0%Z /\ (forall x, x <> 0 -> (root p x <-> root u x)) /\
    ((zero = [] /\ ~ root p 0) \/ (zero = [{| numer := 0; ik := 0; isexact := true |}] /\ root p 0))).
  { destruct (Z.eqb_spec (nth 0 p 0%Z) 0) as [E|E].
    - destruct p as [|p0 [|p1 p]]; [destruct Hl as [[] _]; reflexivity| |].
      + cbn in E. subst p0. destruct Hl as [_ []]. reflexivity.
      + cbn [getz nth_error obind nth tl] in *. subst p0. destruct (Z.eqb_spec p1 0) as [E1|E1]; [discriminate|]. injection Ez as <- <-.
        split; [destruct Hl as [_ Hl]; split; [discriminate|exact Hl]|]. split; [assumption|]. split.
        * intros x Hx. unfold root. rewrite zeval_cons. split; intros K; [|rewrite K; ring]. rewrite Rplus_0_l in K. apply Rmult_integral in K. destruct K; [contradiction|assumption].
        * right. split; [reflexivity|]. unfold root. rewrite zeval_cons. ring.
    - injection Ez as <- <-. split; [assumption|]. split; [assumption|]. split; [tauto|]. left. split; [reflexivity|]. unfold root. rewrite zeval_0. intros N. apply eq_IZR in N. contradiction. }
  destruct G as (Lu & U0 & Rt & HZ). clear Ez.
  destruct (isolate_side fuel false u) as [pos|] eqn:Ep; [|discriminate]. cbn [obind] in H.
  destruct (isolate_side fuel true (negate_odd false u)) as [ng|] eqn:En; [|discriminate]. cbn [obind] in H. injection H as <-.
  destruct (isolate_side_sound _ _ _ _ Lu U0 Ep) as (b & out & -> & S).
  destruct (isolate_side_sound _ _ _ _ (negate_odd_lead u false Lu) ltac:(rewrite negate_odd_0; assumption) En) as (b' & out' & -> & S').
  assert (Rn : forall x, root (negate_odd false u) x <-> root u (- x)) by (intros x; unfold root; rewrite negate_odd_eval; tauto).
  assert (Mp : forall e x, record_set (merge_root false b e) x <-> scaled b e x) by (intros; apply merge_root_set).
  assert (Mn : forall e x, record_set (merge_root true b' e) x <-> scaled b' e (- x)) by (intros; apply merge_root_set).
  assert (Zs : forall i x, In i zero -> (record_set i x <-> x = 0) /\ root p 0 /\ isexact i = true).
  { intros i x Hi. destruct HZ as [[-> _]|[-> R0]]; [destruct Hi|]. destruct Hi as [<-|[]]. split; [|auto].
    unfold record_set, in_record. cbn [numer ik isexact]. change (- 0)%Z with 0%Z. rewrite p2_0. split; intros; lra. }
  assert (Hin : forall i, In i (rev (map (merge_root true b') out') ++ zero ++ map (merge_root false b) out) <->
     (exists e, In e out' /\ i = merge_root true b' e) \/ In i zero \/ exists e, In e out /\ i = merge_root false b e).
  { intros i. rewrite !in_app_iff, <- in_rev, !in_map_iff. split.
    - intros [(e & <- & He)|[K|(e & <- & He)]]; eauto.
    - intros [(e & He & ->)|[K|(e & He & ->)]]; eauto. }
  split; [split; [|split]|].
  - apply FOP_map. apply FOP_app; [|apply FOP_app|].
    + apply (FOP_rev (fun x y => left_of (record_set y) (record_set x))). apply FOP_map. pose proof (s_ord _ _ _ S') as O. 
      clear - O Mn. induction O as [|e l F O IH]; constructor; [|assumption]. eapply Forall_impl; [|exact F]. cbv beta. intros e' K x y Hx Hy.
      apply Mn in Hx. apply Mn in Hy. specialize (K _ _ Hy Hx). lra.
    + destruct HZ as [[-> _]|[-> _]]; repeat constructor.
    + apply FOP_map. pose proof (s_ord _ _ _ S) as O. clear - O Mp. induction O as [|e l F O IH]; constructor; [|assumption]. eapply Forall_impl; [|exact F]. cbv beta. intros e' K x y Hx Hy.
      apply Mp in Hx. apply Mp in Hy. exact (K _ _ Hx Hy).
    + intros i j Hi Hj x y Hx Hy. apply (proj1 (Zs i x Hi)) in Hx. subst x. apply in_map_iff in Hj. destruct Hj as (e & <- & He). apply Mp in Hy. apply (s_in _ _ _ S e y He Hy).
    + intros i j Hi Hj x y Hx Hy. rewrite <- in_rev in Hi. apply in_map_iff in Hi. destruct Hi as (e & <- & He). apply Mn in Hx. pose proof (s_in _ _ _ S' e _ He Hx) as Nx.
      apply in_app_iff in Hj. destruct Hj as [Hj|Hj].
      * apply (proj1 (Zs j y Hj)) in Hy. lra.
      * apply in_map_iff in Hj. destruct Hj as (e' & <- & He'). apply Mp in Hy. pose proof (s_in _ _ _ S e' y He' Hy). lra.
  - apply Forall_map. apply Forall_forall. intros i Hi. apply Hin in Hi. destruct Hi as [(e & He & ->)|[Hi|(e & He & ->)]].
    + destruct (s_one _ _ _ S' e He) as (x & Hx & Zx & Ux). pose proof (s_in _ _ _ S' e x He Hx) as Px. exists (- x).
      rewrite Mn, Ropp_involutive. split; [assumption|]. split; [apply Rt; [lra|]; apply Rn; assumption|].
      intros y Hy Zy. apply Mn in Hy. pose proof (s_in _ _ _ S' e _ He Hy) as Py. apply Rt in Zy; [|lra]. rewrite <- (Ux (- y)); [ring|assumption|]. apply Rn. rewrite Ropp_involutive. assumption.
    + exists 0. destruct (Zs i 0 Hi) as (Z1 & Z2 & _). split; [apply Z1; reflexivity|]. split; [assumption|]. intros y Hy _. apply (proj1 (Zs i y Hi)). assumption.
    + destruct (s_one _ _ _ S e He) as (x & Hx & Zx & Ux). pose proof (s_in _ _ _ S e x He Hx) as Px. exists x.
      rewrite Mp. split; [assumption|]. split; [apply Rt; [lra|assumption]|].
      intros y Hy Zy. apply Mp in Hy. pose proof (s_in _ _ _ S e _ He Hy) as Py. apply Rt in Zy; [|lra]. apply Ux; assumption.
  - intros x Zx. assert (G : exists i, In i (rev (map (merge_root true b') out') ++ zero ++ map (merge_root false b) out) /\ record_set i x).
    { destruct (Rtotal_order x 0) as [L|[->|L]].
      - apply Rt in Zx; [|lra]. destruct (s_cover _ _ _ S' (- x)) as (e & He & Hm); [lra|apply Rn; rewrite Ropp_involutive; assumption|].
        exists (merge_root true b' e). rewrite Hin, Mn. eauto.
      - destruct HZ as [[_ N]|[-> _]]; [contradiction|]. exists {| numer := 0; ik := 0; isexact := true |}. split; [apply Hin; right; left; left; reflexivity|].
        unfold record_set, in_record. cbn [numer ik isexact]. ring.
      - apply Rt in Zx; [|lra]. destruct (s_cover _ _ _ S x) as (e & He & Hm); [lra|assumption|]. exists (merge_root false b e). rewrite Hin, Mp. eauto 6. }
    destruct G as (i & Hi & Hm). exists (record_set i). split; [apply in_map; assumption|assumption].
  - intros i Hi Ei z Hz Rz.
    assert (Zr : z = 0 -> exists j, In j (rev (map (merge_root true b') out') ++ zero ++ map (merge_root false b) out) /\ isexact j = true /\ record_set j z).
    { intros ->. destruct HZ as [[_ N]|[-> _]]; [contradiction|]. exists {| numer := 0; ik := 0; isexact := true |}. split; [apply Hin; right; left; left; reflexivity|].
      split; [reflexivity|]. unfold record_set, in_record. cbn [numer ik isexact]. ring. }
    destruct (Req_dec z 0) as [Z0|Nz]; [apply Zr; assumption|]. apply Rt in Rz; [|assumption].
    apply Hin in Hi. destruct Hi as [(e & He & ->)|[Hi|(e & He & ->)]].
    + assert (Ee : exact e = false) by (destruct (exact e) eqn:Ee; [|reflexivity]; destruct (merge_exact true b' e Ee); congruence).
      destruct (merge_ends true b' e Ee) as (_ & El & Eh). rewrite El, Eh in Hz.
      destruct (s_ends _ _ _ S' e He Ee (- z)) as (_ & K); [destruct Hz as [->| ->]; rewrite Ropp_involutive; auto|].
      destruct K as (e' & He' & Ex' & El'); [apply Rn; rewrite Ropp_involutive; assumption|]. exists (merge_root true b' e'). rewrite Hin. split; [eauto|].
      destruct (merge_exact true b' e' Ex') as [M1 M2]. split; [assumption|]. rewrite El' in M2. cbn [sx] in M2. rewrite Ropp_involutive in M2. assumption.
    + destruct (Zs i 0 Hi) as (_ & _ & K). congruence.
    + assert (Ee : exact e = false) by (destruct (exact e) eqn:Ee; [|reflexivity]; destruct (merge_exact false b e Ee); congruence).
      destruct (merge_ends false b e Ee) as (_ & El & Eh). rewrite El, Eh in Hz.
      destruct (s_ends _ _ _ S e He Ee z) as (_ & K); [destruct Hz as [->| ->]; auto|].
      destruct K as (e' & He' & Ex' & El'); [assumption|]. exists (merge_root false b e'). rewrite Hin. split; [eauto 6|].
      destruct (merge_exact false b e' Ex') as [M1 M2]. split; [assumption|]. rewrite El' in M2. assumption.
Qed.
