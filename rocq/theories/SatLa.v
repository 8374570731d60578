(** Linear algebra of the saturation: reduction of a row up to a column, dependencies with their multipliers. *)
From Coq Require Import ZArith Arith List Bool Lia Znumtheory Sorted.
From Verif Require Import ModInvModel LinSpec LaSpec LaModel LaProofs LaRowProofs LaSysProofs F4Model SatModel.
Import ListNotations.
Open Scope Z_scope.

Section Sat.
Variable p : Z.
Hypothesis HP : prime p.
Hypothesis HK : kern_ok K31 p.
Let Hp : 2 <= p := proj1 HK.

(** ** A row operation with any row *)
Lemma apply_any r e dr : NoDup (map fst r) -> cfs_ok p r -> (forall t, In t r -> (fst t < length dr)%nat) -> 0 < e < p -> (forall j, 0 <= dv dr j < p * p) ->
  exists dr', apply_row K31 p e r dr = Some dr' /\ length dr' = length dr /\ (forall j, eqp p (dv dr' j) (dv dr j - e * rv r j)) /\ (forall j, 0 <= dv dr' j < p * p).
Proof.
  intros ND HC HL He Hb.
  assert (Hpt : forall t, In t r -> exists d', pt K31 (p*p) (kmul K31 p e) (snd t) (dv dr (fst t)) = Some d' /\ 0 <= d' < p * p /\ eqp p d' (dv dr (fst t) - e * snd t)).
  { intros t Ht. destruct (pt_ok K31 p O e (snd t) (dv dr (fst t)) HK I He (HC t Ht)) as (d' & D1 & D2 & D3); [apply Hb|]. exists d'. auto. }
  destruct (apply_row_upds K31 p e r dr) as (dr' & E & (L & N & U)).
  - pose proof (kern_pp K31 p HK). lia.
  - assumption.
  - intros t Ht. split; [auto|]. destruct (Hpt t Ht) as (d' & -> & _). discriminate.
  - exists dr'. split; [assumption|]. split; [lia|].
    assert (Hcase : forall j, (exists t, In t r /\ fst t = j) \/ ~ In j (map fst r)).
    { intros j. destruct (in_dec Nat.eq_dec j (map fst r)) as [Hin|Hn]; [left|right; assumption]. apply in_map_iff in Hin. destruct Hin as (t & Et & Ht). eauto. }
    split.
    + intros j. destruct (Hcase j) as [(t & Ht & <-)|Hn].
      * destruct (Hpt t Ht) as (d' & E1 & _ & E2). rewrite (U t Ht) in E1. injection E1 as ->. rewrite (rv_in r t ND Ht). assumption.
      * rewrite N, rv_notin by assumption. exists 0. ring.
    + intros j. destruct (Hcase j) as [(t & Ht & <-)|Hn].
      * destruct (Hpt t Ht) as (d' & E1 & E3 & _). rewrite (U t Ht) in E1. injection E1 as ->. assumption.
      * rewrite N by assumption. apply Hb.
Qed.

(** ** Extraction modulo p *)
Lemma dv_rem l j : dv (map (fun d => if d =? 0 then d else Z.rem d p) l) j = (if dv l j =? 0 then dv l j else Z.rem (dv l j) p).
Proof. unfold dv. rewrite <- (map_nth (fun d => if d =? 0 then d else Z.rem d p) l 0 j). reflexivity. Qed.
Lemma rem_collect_ok i l : (forall j, 0 <= dv l j < p * p) ->
  (forall j, eqp p (rv (rem_collect p i l) j) (if (i <=? j)%nat then dv l (j - i)%nat else 0)) /\ canon p (rem_collect p i l) /\
  (forall t, In t (rem_collect p i l) -> (i <= fst t < i + length l)%nat) /\ (forall j, (i <= j)%nat -> rv (rem_collect p i l) j = dv l (j - i)%nat mod p).
Proof.
  intros Hb. set (l' := map (fun d => if d =? 0 then d else Z.rem d p) l).
  assert (V : forall j, dv l' j = dv l j mod p).
  { intros j. unfold l'. rewrite dv_rem. destruct (Z.eqb_spec (dv l j) 0) as [->|_]; [symmetry; apply Z.mod_0_l; lia|]. apply Z.rem_mod_nonneg; [apply Hb|lia]. }
  destruct (collect_spec K31 p) with (dr := l') (i := i) as (C1 & C2 & C3 & _).
  - pose proof (proj2 HK) as K. cbn in K |- *. lia.
  - intros j. rewrite V. apply Z.mod_pos_bound. lia.
  - unfold rem_collect. fold l'. split; [|split; [|split]].
    + intros j. rewrite C1. destruct (i <=? j)%nat; [|reflexivity]. rewrite V. apply eqp_mod. lia.
    + split; [exact C2|]. intros t Ht. apply C3. exact Ht.
    + intros t Ht. destruct (C3 t Ht) as (_ & K & _). unfold l' in K. rewrite map_length in K. exact K.
    + intros j Hj. rewrite C1. apply Nat.leb_le in Hj. rewrite Hj. apply V.
Qed.

(** ** Reduction of the first columns *)
Lemma red_part ncols pivs : pivots_ok p ncols pivs -> forall cnt i dr n, (i + cnt <= ncols)%nat -> red_inv K31 p ncols i dr n ->
  exists dr' n', red_loop K31 p pivs cnt i dr n = Some (dr', n') /\ red_inv K31 p ncols (i + cnt) dr' n' /\
  (forall j, (j < i)%nat -> dv dr' j = dv dr j) /\ (forall j, (i <= j < i + cnt)%nat -> pivs j <> None -> dv dr' j = 0) /\
  span p (pset_of pivs) (fun j => dv dr j - dv dr' j).
Proof.
  intros HPv. induction cnt as [|cnt IH]; intros i dr n Hc HI; cbn [red_loop].
  - exists dr, n. rewrite Nat.add_0_r. split; [reflexivity|]. split; [assumption|]. split; [auto|]. split; [lia|].
    apply span_veq0. intros j. exists 0. unfold vzero. ring.
  - destruct (col_step_inv K31 p ncols pivs i dr n HK I HPv HI) as (d1 & b & -> & I1 & L1 & Z1 & S1); [lia|]. cbn [obind fst snd].
    destruct (IH (S i) d1 (if b then S n else n)) as (d2 & n2 & -> & I2 & L2 & Z2 & S2); [lia|assumption|].
    exists d2, n2. split; [reflexivity|]. replace (i + S cnt)%nat with (S i + cnt)%nat by lia. split; [assumption|]. split; [intros j Hj; rewrite L2, L1 by lia; reflexivity|]. split.
    + intros j Hj Hpv. destruct (Nat.eq_dec j i) as [->|]; [rewrite L2 by lia; auto|]. apply Z2; [lia|assumption].
    + eapply span_eq; [apply (span_lin p _ 1); [exact S1|exact S2]|]. intros j. exists 0. ring.
Qed.
Lemma first_nz dr n : forall a, match find (fun i => negb (nth i dr 0 =? 0)) (seq a n) with
  | Some i => (a <= i < a + n)%nat /\ forall j, (a <= j < i)%nat -> dv dr j = 0
  | None => forall j, (a <= j < a + n)%nat -> dv dr j = 0 end.
Proof.
  induction n as [|n IH]; intros a; cbn [seq find]; [intros j Hj; lia|]. destruct (Z.eqb_spec (nth a dr 0) 0) as [E|E]; cbn [negb].
  - specialize (IH (S a)). destruct (find _ (seq (S a) n)) as [i|].
    + destruct IH as (I1 & I2). split; [lia|]. intros j Hj. destruct (Nat.eq_dec j a) as [->|]; [exact E|apply I2; lia].
    + intros j Hj. destruct (Nat.eq_dec j a) as [->|]; [exact E|apply IH; lia].
  - split; [lia|]. intros j Hj. lia.
Qed.
Lemma upto_row_ok pivs ncl ncols r : pivots_ok p ncols pivs -> (ncl <= ncols)%nat -> (forall c, (c < ncl)%nat -> pivs c <> None) ->
  NoDup (map fst r) -> cfs_ok p r -> (forall t, In t r -> (fst t < ncols)%nat) ->
  exists r', upto_row p pivs ncl ncols r = Some r' /\ canon p r' /\ (forall t, In t r' -> (ncl <= fst t < ncols)%nat) /\ span p (pset_of pivs) (fun j => rv r j - rv r' j).
Proof.
  intros HPv Hn Hc ND HC HL. destruct (scatter_ok p ncols r Hp ND HC HL) as (dr & E & L & V & B). unfold upto_row. rewrite E. cbn [obind].
  pose proof (first_nz dr ncols O) as FN. set (sc := match find _ (seq 0 ncols) with Some i => i | None => ncols end) in *.
  assert (S1 : (sc <= ncols)%nat) by (unfold sc; destruct (find _ (seq 0 ncols)); [destruct FN; lia|lia]).
  assert (S2 : forall j, (j < sc)%nat -> dv dr j = 0) by (unfold sc; destruct (find _ (seq 0 ncols)) as [i|]; [destruct FN as (_ & FN); intros j Hj; apply FN; lia|intros j Hj; apply FN; lia]).
  destruct (red_part ncols pivs HPv (ncl - sc) sc dr O) as (dr' & n' & E' & I' & L' & Z' & SP); [lia| |].
  { split; [exact S1|]. split; [exact L|]. split; [intros j Hj; apply B|]. split; [intros j; specialize (B j); cbn [kb]; nia|]. symmetry. apply nzc_0. exact S2. }
  rewrite E'. cbn [obind fst]. destruct I' as (_ & Ln & _ & Bd & _). cbn [kb] in Bd.
  change (collect K31 ncl (map (fun d => if d =? 0 then d else Z.rem d p) (skipn ncl dr'))) with (rem_collect p ncl (skipn ncl dr')).
  destruct (rem_collect_ok ncl (skipn ncl dr')) as (R1 & R2 & R3 & _); [intros j; rewrite dv_skipn; apply Bd|].
  eexists. split; [reflexivity|]. split; [exact R2|]. split; [intros t Ht; specialize (R3 t Ht); rewrite skipn_length in R3; lia|].
  eapply span_eq; [exact SP|]. intros j. rewrite R1, V. destruct (Nat.leb_spec ncl j) as [H|H].
  - rewrite dv_skipn. replace (ncl + (j - ncl))%nat with j by lia. reflexivity.
  - assert (K : dv dr' j = 0).
    { destruct (Nat.lt_ge_cases j sc) as [H1|H1]; [rewrite L', S2 by exact H1; reflexivity|]. apply Z'; [lia|apply Hc; exact H]. }
    rewrite K. reflexivity.
Qed.

(** ** Dependencies *)
Section Dep.
Variables (ncols nm : nat) (R : vec -> vec -> Prop).
Hypothesis R_lin : forall a u m v n, R u m -> R v n -> R (fun j => a * u j + v j) (fun j => a * m j + n j).
Hypothesis R_eq : forall u m v n, R u m -> veq p u v -> veq p m n -> R v n.
Notation pv := (nat -> option (list (nat * Z) * list (nat * Z)))%type.
Definition mrow_ok (r : list (nat * Z)) : Prop := NoDup (map fst r) /\ cfs_ok p r /\ forall t, In t r -> (fst t < nm)%nat.
Definition pinv (pivs : pv) : Prop := forall c r rm, pivs c = Some (r, rm) -> pivot_row p ncols c r /\ mrow_ok rm /\ R (rv r) (rv rm).

Lemma canon_nodup r : canon p r -> NoDup (map fst r).
Proof.
  intros (H & _). induction H as [|a l H IH HF]; constructor; [|exact IH]. intros K. rewrite Forall_forall in HF. specialize (HF a K). lia.
Qed.
Lemma canon_cfs r : canon p r -> cfs_ok p r.
Proof. intros (_ & H) t Ht. specialize (H t Ht). lia. Qed.

Lemma sat_loop_ok pivs : pinv pivs -> forall cnt i dr drm, (i + cnt = ncols)%nat -> length dr = ncols -> length drm = nm ->
  (forall j, 0 <= dv dr j < p * p) -> (forall j, 0 <= dv drm j < p * p) -> (forall j, (j < i)%nat -> dv dr j = 0) -> R (dv dr) (dv drm) ->
  exists dr' drm' lead, sat_loop p pivs cnt i dr drm = Some (dr', drm', lead) /\ length dr' = ncols /\ length drm' = nm /\
  (forall j, 0 <= dv dr' j < p * p) /\ (forall j, 0 <= dv drm' j < p * p) /\ R (dv dr') (dv drm') /\
  match lead with None => forall j, dv dr' j = 0 | Some c => (i <= c < ncols)%nat /\ (forall j, (j < c)%nat -> dv dr' j = 0) /\ 0 < dv dr' c < p /\ pivs c = None end.
Proof.
  intros HI. induction cnt as [|cnt IH]; intros i dr drm Hc L Lm B Bm Hz HR; cbn [sat_loop].
  - exists dr, drm, None. split; [reflexivity|]. split; [exact L|]. split; [exact Lm|]. split; [exact B|]. split; [exact Bm|]. split; [exact HR|]. intros j.
    destruct (Nat.lt_ge_cases j i) as [H|H]; [apply Hz; exact H|apply dv_overflow; lia].
  - rewrite drd_dv by lia. cbn [obind]. set (d := if dv dr i =? 0 then dv dr i else Z.rem (dv dr i) p).
    assert (Hd : d = dv dr i mod p).
    { unfold d. destruct (Z.eqb_spec (dv dr i) 0) as [->|_]; [symmetry; apply Z.mod_0_l; lia|]. apply Z.rem_mod_nonneg; [apply B|lia]. }
    assert (Hdr : 0 <= d < p) by (rewrite Hd; apply Z.mod_pos_bound; lia). assert (Hpp : p <= p * p) by nia.
    destruct (dwr_ok dr i d) as (dr0 & E0 & L0 & V0); [lia|]. rewrite E0. cbn [obind].
    assert (B0 : forall j, 0 <= dv dr0 j < p * p) by (intros j; rewrite V0; destruct (j =? i)%nat; [lia|apply B]).
    assert (Eq0 : veq p (dv dr) (dv dr0)).
    { intros j. rewrite V0. destruct (Nat.eqb_spec j i) as [->|]; [|reflexivity]. rewrite Hd. symmetry. apply eqp_mod. lia. }
    assert (R0 : R (dv dr0) (dv drm)) by (eapply R_eq; [exact HR|exact Eq0|intros j; reflexivity]).
    assert (Z0 : forall j, (j < i)%nat -> dv dr0 j = 0) by (intros j Hj; rewrite V0; destruct (Nat.eqb_spec j i); [lia|apply Hz; exact Hj]).
    assert (Di : dv dr0 i = d) by (rewrite V0, Nat.eqb_refl; reflexivity).
    destruct (Z.eqb_spec d 0) as [Ed|Ed].
    + destruct (IH (S i) dr0 drm) as (dr' & drm' & lead & E & K1 & K2 & K3 & K4 & K5 & K6); auto; try lia.
      { intros j Hj. destruct (Nat.eq_dec j i) as [->|]; [lia|apply Z0; lia]. }
      exists dr', drm', lead. split; [exact E|]. split; [exact K1|]. split; [exact K2|]. split; [exact K3|]. split; [exact K4|]. split; [exact K5|].
      destruct lead as [c|]; [|exact K6]. destruct K6 as (C1 & C2). split; [lia|exact C2].
    + destruct (pivs i) as [[r rm]|] eqn:Epv.
      * destruct (HI i r rm Epv) as (P1 & (M1 & M2 & M3) & P3).
        destruct (apply_row_ok K31 p ncols O i r d dr0 HK I P1) as (dr1 & E1 & L1 & Q1 & B1 & C1); [lia|lia|exact B0|]. cbn [kb] in C1. rewrite E1. cbn [obind].
        destruct (apply_any rm d drm M1 M2) as (drm1 & E2 & L2 & Q2 & C2); [intros t Ht; rewrite Lm; apply M3; exact Ht|lia|exact Bm|]. rewrite E2. cbn [obind].
        destruct (dwr_ok dr1 i 0) as (dr2 & E3 & L3 & V3); [lia|]. rewrite E3. cbn [obind].
        assert (Q3 : forall j, eqp p (dv dr2 j) (dv dr0 j - d * rv r j)).
        { intros j. rewrite V3. destruct (Nat.eqb_spec j i) as [->|]; [|apply Q1]. rewrite (pivot_lead p ncols i r P1), Di. exists 0. ring. }
        destruct (IH (S i) dr2 drm1) as (dr' & drm' & lead & E & K1 & K2 & K3 & K4 & K5 & K6); auto; try lia.
        -- intros j. rewrite V3. destruct (j =? i)%nat; [lia|apply C1].
        -- intros j Hj. rewrite V3. destruct (Nat.eqb_spec j i) as [->|]; [reflexivity|]. rewrite B1 by lia. apply Z0. lia.
        -- eapply R_eq; [apply (R_lin (- d) _ _ _ _ P3 R0)| |].
           ++ intros j. rewrite Q3. exists 0. ring.
           ++ intros j. rewrite Q2. exists 0. ring.
        -- exists dr', drm', lead. split; [exact E|]. split; [exact K1|]. split; [exact K2|]. split; [exact K3|]. split; [exact K4|]. split; [exact K5|].
           destruct lead as [c|]; [|exact K6]. destruct K6 as (D1 & D2). split; [lia|exact D2].
      * exists dr0, drm, (Some i). split; [reflexivity|]. split; [lia|]. split; [exact Lm|]. split; [exact B0|]. split; [exact Bm|]. split; [exact R0|]. split; [lia|]. split; [exact Z0|]. split; [lia|exact Epv].
Qed.

Definition unitv (i : nat) : vec := fun j => if (j =? i)%nat then 1 else 0.
(** a kernel element: monic, in unique representation, a dependency *)
Definition kernel_row (k : list (nat * Z)) : Prop := k <> [] /\ canon p k /\ (forall t, In t k -> (fst t < nm)%nat) /\ R vzero (rv k).

Lemma scale_R x u m v n : R u m -> veq p (fun j => x * u j) v -> veq p (fun j => x * m j) n -> R vzero (fun _ => 0) -> R v n.
Proof.
  intros H E1 E2 H0. eapply R_eq; [apply (R_lin x _ _ _ _ H H0)| |].
  - intros j. specialize (E1 j). cbv beta in E1. rewrite <- E1. unfold vzero. exists 0. ring.
  - intros j. specialize (E2 j). cbv beta in E2. rewrite <- E2. exists 0. ring.
Qed.
Hypothesis R_zero : R vzero (fun _ => 0).

Lemma sat_row_ok pivs mi pos r pivs' ks : pinv pivs -> canon p r -> (forall t, In t r -> (fst t < ncols)%nat) -> (mi < nm)%nat -> R (rv r) (unitv mi) ->
  sat_row p ncols nm pivs mi pos r = Ok (pivs', ks) -> pinv pivs' /\ forall k, In k ks -> kernel_row k.
Proof.
  intros HI Hr HL Hmi HR H. unfold sat_row in H. destruct r as [|t r0] eqn:Er; [discriminate|]. rewrite <- Er in *.
  destruct (scatter_ok p ncols r Hp (canon_nodup r Hr) (canon_cfs r Hr) HL) as (dr & E & L & V & B). rewrite E in H. cbn [of_opt rbind] in H.
  destruct (dwr_ok (repeat 0 nm) mi 1) as (drm & Em & Lm & Vm); [rewrite repeat_length; exact Hmi|]. rewrite Em in H. cbn [of_opt rbind] in H. rewrite repeat_length in Lm.
  destruct (pos <? ncols)%nat; [|discriminate].
  assert (Ht : (fst t < ncols)%nat) by (apply HL; rewrite Er; left; reflexivity).
  assert (Hpp : p <= p * p) by nia.
  destruct (sat_loop_ok pivs HI (ncols - fst t) (fst t) dr drm) as (dr' & drm' & lead & E' & K1 & K2 & K3 & K4 & K5 & K6); auto; try lia.
  - intros j. specialize (B j). lia.
  - intros j. rewrite Vm, dv_repeat. destruct (j =? mi)%nat; lia.
  - intros j Hj. rewrite V. destruct Hr as (Hs & _). rewrite Er in *. apply rv_notin. cbn [map] in *. inversion Hs as [|? ? S1 S2]; subst. rewrite Forall_forall in S2. intros [K|K]; [lia|]. specialize (S2 j K). lia.
  - eapply R_eq; [exact HR| |].
    + intros j. rewrite V. reflexivity.
    + intros j. rewrite Vm, dv_repeat. unfold unitv. reflexivity.
  - rewrite E' in H. cbn [of_opt rbind] in H.
    destruct (rem_collect_ok O drm' K4) as (M1 & M2 & M3 & _). set (rm := rem_collect p 0 drm') in *.
    assert (Mok : mrow_ok rm) by (split; [apply canon_nodup; exact M2|]; split; [apply canon_cfs; exact M2|]; intros u Hu; specialize (M3 u Hu); lia).
    assert (Mv : veq p (dv drm') (rv rm)) by (intros j; rewrite M1; cbn [Nat.leb]; rewrite Nat.sub_0_r; reflexivity).
    destruct lead as [c|].
    + destruct K6 as (C1 & C2 & C3 & C4). destruct (rem_collect_ok c (skipn c dr')) as (N1 & N2 & N3 & N4); [intros j; rewrite dv_skipn; apply K3|].
      set (rc := rem_collect p c (skipn c dr')) in *.
      assert (Nv : veq p (dv dr') (rv rc)).
      { intros j. rewrite N1. destruct (Nat.leb_spec c j) as [Hj|Hj]; [rewrite dv_skipn; replace (c + (j - c))%nat with j by lia; reflexivity|rewrite C2 by exact Hj; reflexivity]. }
      assert (Rc : R (rv rc) (rv rm)) by (eapply R_eq; [exact K5|exact Nv|exact Mv]).
      assert (Lead : rv rc c = dv dr' c) by (rewrite N4 by lia; rewrite Nat.sub_diag, dv_skipn, Nat.add_0_r; apply Z.mod_small; lia).
      destruct rc as [|[c0 x0] q] eqn:Erc; [discriminate|].
      assert (Ec : c0 = c).
      { destruct (Nat.eq_dec c0 c) as [|Hne]; [assumption|]. exfalso. assert (K : rv ((c0, x0) :: q) c = 0).
        { apply rv_notin. destruct N2 as (S1 & _). cbn [map fst] in S1 |- *. inversion S1 as [|? ? A1 A2]; subst. rewrite Forall_forall in A2. pose proof (N3 (c0, x0) (or_introl eq_refl)) as K0. cbn [fst] in K0. intros [K|K]; [congruence|]. specialize (A2 c K). lia. }
        lia. }
      subst c0. assert (Hx0 : 0 < x0 < p) by (apply (proj2 N2 (c, x0)); left; reflexivity).
      assert (Cols : forall t0, In t0 ((c, x0) :: q) -> (fst t0 < ncols)%nat) by (intros t0 H0; specialize (N3 t0 H0); rewrite skipn_length in N3; lia).
      assert (Gt : forall t0, In t0 q -> (c < fst t0)%nat).
      { intros t0 H0. destruct N2 as (S1 & _). cbn [map fst] in S1. inversion S1 as [|? ? A1 A2]; subst. rewrite Forall_forall in A2. apply A2. apply in_map. exact H0. }
      destruct (Z.eqb_spec x0 1) as [Ex|Ex].
      * injection H as <- <-. split; [|intros k []]. intros c' r' rm' Hc'. destruct (Nat.eqb_spec c' c) as [->|Hne]; [|apply HI; exact Hc'].
        injection Hc' as <- <-. split; [|split; [exact Mok|exact Rc]]. subst x0. split; [apply canon_nodup; exact N2|]. split; [apply canon_cfs; exact N2|]. split; [exact Cols|]. exists q. auto.
      * change (of_opt (mod_p_inverse_32 x0 p)) with (of_opt (kinv K31 x0 p)) in H. destruct (kinv_ok K31 p x0 HP HK Hx0) as (y & Ey & Hy & Hyx). rewrite Ey in H. cbn [of_opt rbind] in H.
        rewrite scale_row_map in H. cbn [of_opt rbind] in H.
        destruct (normalize_canon K31 p (c, x0) q HP HK N2) as (q' & y' & En & Hy' & Hyx' & Cn & Mq & Vq). cbn [fst snd] in *. rewrite En in H. cbn [of_opt rbind] in H. injection H as <- <-.
        split; [|intros k []]. intros c' r' rm' Hc'. destruct (Nat.eqb_spec c' c) as [->|Hne]; [|apply HI; exact Hc']. injection Hc' as <- <-.
        assert (Eyy : eqp p y y').
        { assert (A : eqp p (y * (y' * x0)) y) by (rewrite Hyx'; exists 0; ring). assert (A2 : eqp p (y * (y' * x0)) y') by (replace (y * (y' * x0)) with (y' * (y * x0)) by ring; rewrite Hyx; exists 0; ring). rewrite <- A. exact A2. }
        split; [|split].
        -- split; [apply canon_nodup; exact Cn|]. split; [apply canon_cfs; exact Cn|]. split.
           ++ intros t0 H0. assert (In (fst t0) (map fst ((c, x0) :: q))) by (cbn [map fst]; rewrite <- Mq; apply (in_map fst) in H0; exact H0). apply in_map_iff in H as (t1 & <- & H1). apply Cols. exact H1.
           ++ exists q'. split; [reflexivity|]. intros t0 H0. assert (In (fst t0) (map fst q)) by (rewrite <- Mq; apply in_map; exact H0). apply in_map_iff in H as (t1 & <- & H1). apply Gt. exact H1.
        -- destruct Mok as (O1 & O2 & O3). split; [rewrite map_fst_scale; exact O1|]. split.
           ++ intros t0 H0. apply in_map_iff in H0 as (t1 & <- & H1). cbn [scale1 snd]. apply Z.mod_pos_bound. lia.
           ++ intros t0 H0. apply in_map_iff in H0 as (t1 & <- & H1). apply (O3 t1 H1).
        -- apply (scale_R y _ _ _ _ Rc); [| |exact R_zero].
           ++ intros j. rewrite Vq, Eyy. reflexivity.
           ++ intros j. rewrite rv_scale by lia. reflexivity.
    + destruct (normalize_row K31 p rm) as [k|] eqn:En; cbn [of_opt rbind] in H; [|discriminate]. injection H as <- <-. split; [exact HI|]. intros k0 [<-|[]].
      destruct rm as [|tm q] eqn:Erm; [discriminate En|]. destruct (normalize_canon K31 p tm q HP HK M2) as (q' & y' & En' & Hy' & Hyx' & Cn & Mq & Vq). rewrite En' in En. injection En as <-.
      split; [discriminate|]. split; [exact Cn|]. split.
      * intros t0 H0. assert (K : In (fst t0) (map fst (tm :: q))) by (cbn [map fst]; rewrite <- Mq; apply (in_map fst) in H0; exact H0). apply in_map_iff in K as (t1 & <- & H1). specialize (M3 t1 H1). lia.
      * apply (scale_R y' (dv dr') (dv drm')); [exact K5| | |exact R_zero].
        -- intros j. rewrite K6. unfold vzero. exists 0. ring.
        -- intros j. specialize (Mv j). rewrite Vq, Mv. reflexivity.
Qed.

Lemma sat_rows_ok l : forall pivs ks, pinv pivs ->
  (forall mi pos r, In (mi, pos, r) l -> canon p r /\ (forall t, In t r -> (fst t < ncols)%nat) /\ (mi < nm)%nat /\ R (rv r) (unitv mi)) ->
  sat_rows p ncols nm pivs l = Ok ks -> forall k, In k ks -> kernel_row k.
Proof.
  induction l as [|[[mi pos] r] l IH]; intros pivs ks HI Hl H; cbn [sat_rows] in H; [injection H as <-; intros k []|].
  destruct (sat_row p ncols nm pivs mi pos r) as [[pivs' k1]| | |] eqn:E; cbn [rbind fst snd] in H; try discriminate.
  destruct (sat_rows p ncols nm pivs' l) as [k2| | |] eqn:E2; cbn [rbind] in H; try discriminate. injection H as <-.
  destruct (Hl mi pos r (or_introl eq_refl)) as (A1 & A2 & A3 & A4). destruct (sat_row_ok pivs mi pos r pivs' k1 HI A1 A2 A3 A4 E) as (B1 & B2).
  intros k Hk. apply in_app_or in Hk as [Hk|Hk]; [apply B2; exact Hk|]. apply (IH pivs' k2 B1); auto. intros mi' pos' r' Hin. apply (Hl mi' pos' r'). right. exact Hin.
Qed.
End Dep.
End Sat.
