From Coq Require Import ZArith NArith Arith List Bool Lia.
From Verif Require Import ModInvModel MonoSpec MonoSpecProofs MonoModel.
Import ListNotations.
Open Scope N_scope.

(** ** Arrays *)
Lemma rd_ex (l : list N) i : (i < length l)%nat -> rd l i = Some (ex l i).
Proof.
  unfold rd, ex. revert i; induction l as [|x l IH]; intros [|i] H; cbn in *; try lia; auto. apply IH. lia.
Qed.

Lemma wr_ok {A} (l : list A) : forall i x, (i < length l)%nat ->
  exists r, wr l i x = Some r /\ length r = length l /\
  forall d j, nth j r d = if (j =? i)%nat then x else nth j l d.
Proof.
  induction l as [|y l IH]; intros [|i] x H; cbn in *; try lia.
  - exists (x :: l). split; [reflexivity|]. split; [reflexivity|]. intros d [|j]; reflexivity.
  - destruct (IH i x ltac:(lia)) as (r & -> & Hl & Hn). exists (y :: r). split; [reflexivity|].
    split; [cbn; lia|]. intros d [|j]; cbn; [reflexivity|]. apply Hn.
Qed.

Lemma wr_ex (l : list N) i x : (i < length l)%nat ->
  exists r, wr l i x = Some r /\ length r = length l /\ forall j, ex r j = if (j =? i)%nat then x else ex l j.
Proof. intros H. destruct (wr_ok l i x H) as (r & H1 & H2 & H3). exists r. split; [auto|]. split; [auto|]. intros j. apply H3. Qed.

(** ** Layouts *)
Definition lay (nev : nat) (m : mono) : list N :=
  if (nev =? 0)%nat then mdeg m :: m
  else mdeg (firstn nev m) :: firstn nev m ++ mdeg (skipn nev m) :: skipn nev m.

Lemma ex_firstn k m j : ex (firstn k m) j = if (j <? k)%nat then ex m j else 0.
Proof.
  unfold ex. destruct (Nat.ltb_spec j k).
  - revert m j H. induction k as [|k IH]; intros m j H; [lia|]. destruct m as [|x m]; [reflexivity|].
    destruct j; [reflexivity|]. cbn. apply IH. lia.
  - apply nth_overflow. rewrite firstn_length. lia.
Qed.
Lemma ex_skipn k m j : ex (skipn k m) j = ex m (k + j).
Proof.
  unfold ex. revert m; induction k as [|k IH]; intros m; [reflexivity|]. destruct m as [|x m]; cbn; [destruct j; reflexivity|]. apply IH.
Qed.

Section Layout.
Variables nv nev : nat.
Hypothesis Hnev : (nev < nv)%nat.

Lemma lay_length m : length m = nv -> length (lay nev m) = ht_evl nv nev.
Proof.
  intros H. unfold lay, ht_evl. destruct (nev =? 0)%nat eqn:E; [cbn; lia|]. apply Nat.eqb_neq in E.
  cbn. rewrite app_length. cbn. rewrite firstn_length, skipn_length. lia.
Qed.

Lemma lay_first m j : length m = nv -> (1 <= j <= nev)%nat -> ex (lay nev m) j = ex m (j - 1).
Proof.
  intros Hm Hj. unfold lay. destruct (Nat.eqb_spec nev 0); [lia|].
  destruct j as [|j]; [lia|]. unfold ex. cbn [nth]. replace (S j - 1)%nat with j by lia.
  rewrite app_nth1 by (rewrite firstn_length; lia). fold (ex (firstn nev m) j) (ex m j). rewrite ex_firstn.
  destruct (Nat.ltb_spec j nev); [reflexivity|lia].
Qed.
Lemma lay_second m j : length m = nv -> (nev < j - (ht_ebl nev - nev))%nat -> ex (lay nev m) j = ex m (j - (ht_ebl nev - nev) - 1).
Proof.
  intros Hm. unfold lay, ht_ebl. destruct (Nat.eqb_spec nev 0) as [->|Hn].
  - intros Hj. destruct j as [|j]; [lia|]. unfold ex. cbn [nth]. f_equal. lia.
  - intros Hj. destruct j as [|j]; [lia|]. unfold ex. cbn [nth].
    rewrite app_nth2 by (rewrite firstn_length; lia). rewrite firstn_length. replace (Nat.min nev (length m)) with nev by lia.
    destruct (j - nev)%nat as [|q] eqn:E; [lia|]. cbn [nth]. fold (ex (skipn nev m) q).
    rewrite ex_skipn. unfold ex. f_equal. lia.
Qed.
Lemma lay_deg0 m : ex (lay nev m) 0 = if (nev =? 0)%nat then mdeg m else mdeg (firstn nev m).
Proof. unfold lay. destruct (nev =? 0)%nat; reflexivity. Qed.
Lemma lay_ebl m : length m = nv -> nev <> 0%nat -> ex (lay nev m) (nev + 1) = mdeg (skipn nev m).
Proof.
  intros Hm Hn. unfold lay. destruct (Nat.eqb_spec nev 0); [lia|]. unfold ex.
  replace (nev + 1)%nat with (S nev) by lia. cbn [nth]. rewrite app_nth2 by (rewrite firstn_length; lia).
  rewrite firstn_length. replace (nev - Nat.min nev (length m))%nat with 0%nat by lia. reflexivity.
Qed.
End Layout.

Lemma lay_inj nv nev a b : (nev < nv)%nat -> length a = nv -> length b = nv -> lay nev a = lay nev b -> a = b.
Proof.
  intros Hn Ha Hb H. apply ex_eq; [congruence|]. intros i.
  destruct (Nat.lt_ge_cases i nv) as [Hi|Hi]; [|rewrite !ex_overflow by lia; reflexivity].
  destruct (Nat.lt_ge_cases i nev) as [Hi'|Hi'].
  - replace (ex a i) with (ex (lay nev a) (S i)) by (rewrite (lay_first nv) by (auto; lia); f_equal; lia).
    replace (ex b i) with (ex (lay nev b) (S i)) by (rewrite (lay_first nv) by (auto; lia); f_equal; lia).
    rewrite H. reflexivity.
  - replace (ex a i) with (ex (lay nev a) (i + 1 + (ht_ebl nev - nev))) by (rewrite (lay_second nv) by (auto; lia); f_equal; lia).
    replace (ex b i) with (ex (lay nev b) (i + 1 + (ht_ebl nev - nev))) by (rewrite (lay_second nv) by (auto; lia); f_equal; lia).
    rewrite H. reflexivity.
Qed.

(** ** Import *)

Lemma mdeg_firstn_S k m : mdeg (firstn (S k) m) = mdeg (firstn k m) + ex m k.
Proof.
  revert m; induction k as [|k IH]; intros m.
  - destruct m; unfold ex; cbn; lia.
  - destruct m as [|x m]; [unfold ex; cbn; lia|].
    change (firstn (S (S k)) (x :: m)) with (x :: firstn (S k) m).
    change (firstn (S k) (x :: m)) with (x :: firstn k m). rewrite !mdeg_cons, IH. unfold ex. cbn [nth]. lia.
Qed.

Lemma sev_loop_ok cnt : forall i off dpos iev ev,
  (i + cnt <= length iev)%nat -> (i + cnt + off <= length ev)%nat -> (dpos < i + off)%nat ->
  exists r, sev_loop cnt i off dpos iev ev = Some r /\ length r = length ev /\
  (forall j, ex r j = if ((i + off <=? j) && (j <? i + off + cnt))%nat then exp16 (nth (j - off) iev 0%Z)
                      else if (j =? dpos)%nat then
                        (match cnt with O => ex ev dpos
                         | _ => (ex ev dpos + mdeg (map exp16 (firstn cnt (skipn i iev)))) mod 2 ^ 16 end)
                      else ex ev j).
Proof.
  induction cnt as [|cnt IH]; intros i off dpos iev ev H1 H2 H3.
  - exists ev. split; [reflexivity|]. split; [reflexivity|]. intros j.
    destruct (Nat.leb_spec (i + off) j); destruct (Nat.ltb_spec j (i + off + 0)); cbn; try lia;
      destruct (Nat.eqb_spec j dpos); subst; reflexivity.
  - cbn [sev_loop].
    assert (Hx : rd iev i = Some (nth i iev 0%Z)) by (apply nth_error_nth'; lia).
    rewrite Hx. cbn [obind].
    destruct (wr_ex ev (i + off) (exp16 (nth i iev 0%Z))) as (e1 & -> & L1 & E1); [lia|]. cbn [obind].
    rewrite rd_ex by lia. cbn [obind]. rewrite rd_ex by lia. cbn [obind].
    destruct (wr_ex e1 dpos (add16 (ex e1 dpos) (ex e1 (i + off)))) as (e2 & -> & L2 & E2); [lia|]. cbn [obind].
    destruct (IH (S i) off dpos iev e2) as (r & Hr & Lr & Er); [lia|lia|lia|].
    exists r. split; [assumption|]. split; [lia|]. intros j. rewrite Er.
    assert (Hsk : skipn i iev = nth i iev 0%Z :: skipn (S i) iev).
    { clear -H1. revert iev H1. induction i as [|i IHi]; intros [|y l] H; cbn in *; try lia; auto. apply IHi. lia. }
    assert (Ed : ex e2 dpos = add16 (ex ev dpos) (exp16 (nth i iev 0%Z))).
    { rewrite E2, Nat.eqb_refl. rewrite !E1, Nat.eqb_refl.
      destruct (Nat.eqb_spec dpos (i + off)); [lia|]. reflexivity. }
    destruct (Nat.leb_spec (S i + off) j); destruct (Nat.ltb_spec j (S i + off + cnt));
    destruct (Nat.leb_spec (i + off) j); destruct (Nat.ltb_spec j (i + off + S cnt)); cbn [andb]; try lia; try reflexivity.
    + destruct (Nat.eqb_spec j dpos); [lia|]. rewrite E2. destruct (Nat.eqb_spec j dpos); [lia|].
      rewrite E1. destruct (Nat.eqb_spec j (i + off)); [lia|]. reflexivity.
    + destruct (Nat.eqb_spec j dpos); [lia|]. rewrite E2. destruct (Nat.eqb_spec j dpos); [lia|].
      rewrite E1. destruct (Nat.eqb_spec j (i + off)); [|lia]. subst j. f_equal. f_equal. lia.
    + destruct (Nat.eqb_spec j dpos).
      * rewrite Hsk. cbn [firstn map]. rewrite mdeg_cons.
        destruct cnt; rewrite Ed; unfold add16; [cbn [firstn map mdeg fold_right]; f_equal; lia|].
        rewrite N.add_mod_idemp_l by discriminate. f_equal. lia.
      * rewrite E2. destruct (Nat.eqb_spec j dpos); [lia|]. rewrite E1. destruct (Nat.eqb_spec j (i + off)); [lia|]. reflexivity.
Qed.

Definition small (m : mono) : Prop := mdeg m < 2 ^ 16.

Lemma exp16_small x : (0 <= x)%Z -> Z.to_N x < 2 ^ 16 -> exp16 x = Z.to_N x.
Proof. intros H0 H. unfold exp16. rewrite Z.mod_small; [reflexivity|]. change (2 ^ 16)%Z with (Z.of_N (2 ^ 16)). lia. Qed.

Lemma map_exp16 l : Forall (fun x => 0 <= x)%Z l -> small (umono l) -> map exp16 l = umono l.
Proof.
  unfold small. induction 1 as [|x l Hx Hl IH]; intros H; [reflexivity|]. unfold umono in *. cbn [map] in *.
  rewrite mdeg_cons in H. rewrite exp16_small by (auto; lia). f_equal. apply IH. lia.
Qed.

Lemma nth_umono l j : (j < length l)%nat -> Z.to_N (nth j l 0%Z) = ex (umono l) j.
Proof. intros H. unfold umono, ex. change 0 with (Z.to_N 0). rewrite map_nth. reflexivity. Qed.

Theorem set_exponent_vector_ok nv nev iev ev : (nev < nv)%nat -> length iev = nv -> length ev = ht_evl nv nev ->
  Forall (fun x => 0 <= x)%Z iev -> small (umono iev) ->
  set_exponent_vector nv nev iev ev = Some (lay nev (umono iev)).
Proof.
  intros Hn Hl Hev Hpos Hsm. unfold set_exponent_vector.
  assert (Hu : length (umono iev) = nv) by (unfold umono; rewrite map_length; auto).
  destruct (wr_ex ev 0 0) as (e1 & -> & L1 & E1); [rewrite Hev; unfold ht_evl; destruct (nev =? 0)%nat; lia|]. cbn [obind].
  destruct (wr_ex e1 (ht_ebl nev) 0) as (e2 & -> & L2 & E2).
  { rewrite L1, Hev. unfold ht_evl, ht_ebl. destruct (Nat.eqb_spec nev 0); lia. }
  cbn [obind].
  destruct (sev_loop_ok nev 0 1 0 iev e2) as (e3 & -> & L3 & E3).
  { lia. } { rewrite L2, L1, Hev. unfold ht_evl. destruct (Nat.eqb_spec nev 0); lia. } { lia. }
  cbn [obind].
  assert (Hoff : (nev + (ht_ebl nev + 1 - nev) = ht_ebl nev + 1)%nat).
  { unfold ht_ebl. destruct (Nat.eqb_spec nev 0); lia. }
  destruct (sev_loop_ok (nv - nev) nev (ht_ebl nev + 1 - nev) (ht_ebl nev) iev e3) as (r & -> & Lr & Er).
  { lia. } { rewrite L3, L2, L1, Hev. unfold ht_evl, ht_ebl. destruct (Nat.eqb_spec nev 0); lia. } { lia. }
  f_equal. apply ex_eq.
  { rewrite (lay_length nv) by assumption. congruence. }
  intros j. rewrite Er. clear Er. rewrite Hoff.
  assert (Hbig : forall k, ex (umono iev) k < 2 ^ 16).
  { intros k. pose proof (ex_le_mdeg (umono iev) k). unfold small in Hsm. lia. }
  assert (Hnn : forall k, (0 <= nth k iev 0)%Z).
  { intros k. destruct (Nat.lt_ge_cases k (length iev)).
    - rewrite Forall_forall in Hpos. apply Hpos, nth_In. assumption.
    - rewrite nth_overflow by assumption. lia. }
  assert (Hx : forall k, (k < nv)%nat -> exp16 (nth k iev 0%Z) = ex (umono iev) k).
  { intros k Hk. rewrite exp16_small; rewrite ?nth_umono by lia; auto. }
  destruct (Nat.leb_spec (ht_ebl nev + 1) j) as [Hj1|Hj1]; destruct (Nat.ltb_spec j (ht_ebl nev + 1 + (nv - nev))) as [Hj2|Hj2]; cbn [andb].
  - rewrite (lay_second nv) by (auto; unfold ht_ebl in *; destruct (Nat.eqb_spec nev 0); lia).
    rewrite Hx by lia. f_equal. unfold ht_ebl in *; destruct (Nat.eqb_spec nev 0); lia.
  - assert (Hov : (ht_evl nv nev <= j)%nat) by (unfold ht_evl, ht_ebl in *; destruct (Nat.eqb_spec nev 0); lia).
    rewrite (ex_overflow (lay _ _)) by (rewrite (lay_length nv); auto).
    destruct (Nat.eqb_spec j (ht_ebl nev)); [lia|]. apply ex_overflow. lia.
  - destruct (Nat.eqb_spec j (ht_ebl nev)) as [->|Hne].
    + destruct (nv - nev)%nat eqn:Ecnt; [lia|]. rewrite <- Ecnt.
      assert (He0 : ex e3 (ht_ebl nev) = 0).
      { rewrite E3. unfold ht_ebl. destruct (Nat.eqb_spec nev 0) as [->|].
        - cbn. rewrite E2. reflexivity.
        - destruct (Nat.leb_spec (0 + 1) (nev + 1)); destruct (Nat.ltb_spec (nev + 1) (0 + 1 + nev)); cbn [andb]; try lia.
          destruct (Nat.eqb_spec (nev + 1) 0); [lia|]. rewrite E2. unfold ht_ebl.
          destruct (Nat.eqb_spec nev 0); [lia|]. rewrite Nat.eqb_refl. reflexivity. }
      rewrite He0, N.add_0_l.
      assert (Hfn : firstn (nv - nev) (skipn nev iev) = skipn nev iev).
      { apply firstn_all2. rewrite skipn_length. lia. }
      rewrite Hfn. 
      assert (Hsk : map exp16 (skipn nev iev) = skipn nev (umono iev)).
      { rewrite <- skipn_map. f_equal. apply map_exp16; assumption. }
      rewrite Hsk. rewrite N.mod_small.
      * unfold ht_ebl. destruct (Nat.eqb_spec nev 0) as [->|Hn0]; [reflexivity|].
        rewrite (lay_ebl nv) by auto. reflexivity.
      * unfold small in Hsm. rewrite <- (firstn_skipn nev (umono iev)), mdeg_app in Hsm. lia.
    + rewrite E3. unfold ht_ebl in *. destruct (Nat.eqb_spec nev 0) as [->|Hn0]; [lia|].
      destruct (Nat.leb_spec (0 + 1) j); destruct (Nat.ltb_spec j (0 + 1 + nev)); cbn [andb]; try lia.
      * rewrite (lay_first nv) by (auto; lia). apply Hx. lia.
      * destruct (Nat.eqb_spec j 0); [subst j|lia]. destruct nev as [|k] eqn:Ek; [lia|]. rewrite <- Ek in *.
        rewrite E2. unfold ht_ebl. destruct (Nat.eqb_spec nev 0); [lia|]. destruct (Nat.eqb_spec 0 (nev + 1)); [lia|].
        rewrite E1. cbn [Nat.eqb]. rewrite N.add_0_l, lay_deg0. destruct (Nat.eqb_spec nev 0); [lia|].
        cbn [skipn]. rewrite <- firstn_map, map_exp16 by assumption. apply N.mod_small.
        unfold small in Hsm. rewrite <- (firstn_skipn nev (umono iev)), mdeg_app in Hsm. lia.
  - destruct (Nat.leb_spec (ht_ebl nev + 1) j); lia.
Qed.

Lemma read_range_ok cnt : forall i ev, (i + cnt <= length ev)%nat ->
  exists r, read_range cnt i ev = Some r /\ length r = cnt /\ forall j, (j < cnt)%nat -> ex r j = ex ev (i + j).
Proof.
  induction cnt as [|c IH]; intros i ev H.
  - exists []. split; [reflexivity|]. split; [reflexivity|]. intros; lia.
  - cbn [read_range]. rewrite rd_ex by lia. cbn [obind]. destruct (IH (S i) ev ltac:(lia)) as (r & -> & Hl & Hr). cbn [obind].
    eexists. split; [reflexivity|]. split; [cbn; lia|]. intros [|j] Hj; unfold ex at 1; cbn [nth].
    + f_equal. lia.
    + fold (ex r j). rewrite Hr by lia. f_equal. lia.
Qed.

Theorem export_exponents_ok nv nev m : (nev < nv)%nat -> length m = nv ->
  export_exponents nv nev (lay nev m) = Some m.
Proof.
  intros Hn Hm. unfold export_exponents.
  pose proof (lay_length nv nev Hn m Hm) as HL.
  destruct (read_range_ok (ht_ebl nev - 1) 1 (lay nev m)) as (l1 & -> & L1 & E1).
  { rewrite HL. unfold ht_ebl, ht_evl. destruct (Nat.eqb_spec nev 0); lia. }
  cbn [obind].
  destruct (read_range_ok (ht_evl nv nev - (ht_ebl nev + 1)) (ht_ebl nev + 1) (lay nev m)) as (l2 & -> & L2 & E2).
  { rewrite HL. unfold ht_ebl, ht_evl. destruct (Nat.eqb_spec nev 0); lia. }
  cbn [obind]. f_equal. apply ex_eq.
  { rewrite app_length, L1, L2, Hm. unfold ht_ebl, ht_evl. destruct (Nat.eqb_spec nev 0); lia. }
  intros j. unfold ex at 1. destruct (Nat.lt_ge_cases j (ht_ebl nev - 1)) as [Hj|Hj].
  - rewrite app_nth1 by lia. fold (ex l1 j). rewrite E1 by assumption.
    unfold ht_ebl in *. destruct (Nat.eqb_spec nev 0); [lia|]. rewrite (lay_first nv) by (auto; lia). f_equal. lia.
  - rewrite app_nth2 by lia. rewrite L1. destruct (Nat.lt_ge_cases j nv) as [Hj'|Hj'].
    + fold (ex l2 (j - (ht_ebl nev - 1))). rewrite E2.
      * rewrite (lay_second nv) by (auto; unfold ht_ebl in *; destruct (Nat.eqb_spec nev 0); lia).
        f_equal. unfold ht_ebl in *; destruct (Nat.eqb_spec nev 0); lia.
      * unfold ht_evl, ht_ebl in *; destruct (Nat.eqb_spec nev 0); lia.
    + rewrite nth_overflow by (rewrite L2; unfold ht_evl, ht_ebl in *; destruct (Nat.eqb_spec nev 0); lia).
      symmetry. apply ex_overflow. lia.
Qed.
