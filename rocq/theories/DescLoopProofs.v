(** The Taylor shift with early sign test, and the soundness of the counts it returns. *)
From Coq Require Import ZArith List Arith Lia Reals Bool.
From Verif Require Import ModInvModel TaylorModel DescModel PolySpec PolyProofs TaylorProofs DescProofs.
Import ListNotations.
Open Scope Z_scope.

(** ** The loops compute the shift *)
Lemma block_shift_plain_ok pre b post d : length b = S d -> d <> 0%nat ->
  block_shift_plain (pre ++ b ++ post) (length pre) d = Some (pre ++ tsh b ++ post).
Proof.
  intros Hb Hd. unfold block_shift_plain. replace (d + 1)%nat with (length b) by lia. rewrite subz_ok. cbn [obind].
  rewrite naive_ok by lia. cbn [obind]. apply blit_ok. rewrite tsh_length. reflexivity.
Qed.
Lemma block_loop_plain_ok sz (Hsz : (2 <= sz)%nat) bs : forall pre i post, Forall (fun b => length b = sz) bs ->
  length pre = (i * sz)%nat ->
  block_loop_plain (length bs) i sz (pre ++ concat bs ++ post) = Some (pre ++ concat (map tsh bs) ++ post).
Proof.
  induction bs as [|b bs IH]; intros pre i post F Hp; [reflexivity|].
  pose proof (Forall_inv F) as Hb. apply Forall_inv_tail in F. cbv beta in Hb.
  cbn [length block_loop_plain concat map]. rewrite <- Hp, <- !app_assoc.
  rewrite block_shift_plain_ok by lia. cbn [obind]. rewrite (app_assoc pre (tsh b)).
  rewrite IH; [rewrite <- app_assoc; reflexivity|assumption|]. rewrite app_length, tsh_length. lia.
Qed.
Lemma merge_pair_plain_ok pre lo hi post s d : is_pow (length lo) s -> length hi = S d ->
  merge_pair_plain (pre ++ (tsh lo ++ tsh hi) ++ post) s (length pre) (length lo) d =
  Some (pre ++ tsh (lo ++ hi) ++ post).
Proof.
  intros Hs Hd. unfold merge_pair_plain.
  replace (d + 1)%nat with (length (tsh hi)) by (rewrite tsh_length; lia).
  replace (length pre + length lo)%nat with (length (pre ++ tsh lo)) by (rewrite app_length, tsh_length; reflexivity).
  rewrite <- (app_assoc (tsh lo)). rewrite (app_assoc pre (tsh lo)). rewrite subz_ok. cbn [obind].
  rewrite <- !app_assoc.
  replace (length lo) with (length (tsh lo)) at 1 by apply tsh_length. rewrite subz_ok. cbn [obind].
  destruct (merge_tsh lo hi s Hs) as [M|M]; [|subst; discriminate].
  assert (Lp : length (pmul s (tsh hi)) = (length lo + length hi)%nat).
  { rewrite pmul_length, tsh_length; [destruct Hs as [L _]; lia| |].
    - destruct Hs as [L _]. destruct s; discriminate.
    - intros K. pose proof (tsh_length hi) as L. rewrite K in L. cbn in L. lia. }
  assert (S1 : subz (pmul s (tsh hi)) 0 (length lo) = Some (firstn (length lo) (pmul s (tsh hi)))).
  { unfold subz. rewrite Lp. destruct (Nat.leb_spec (0 + length lo) (length lo + length hi)); [reflexivity|lia]. }
  assert (S2 : subz (pmul s (tsh hi)) (length lo) (length (tsh hi)) = Some (skipn (length lo) (pmul s (tsh hi)))).
  { unfold subz. rewrite Lp, tsh_length. destruct (Nat.leb_spec (length lo + length hi) (length lo + length hi)); [|lia].
    f_equal. apply firstn_all2. rewrite skipn_length. lia. }
  rewrite S1, S2. cbn [obind].
  assert (L1 : length (padd (tsh lo) (firstn (length lo) (pmul s (tsh hi)))) = length (tsh lo)).
  { rewrite padd_length, firstn_length, tsh_length. lia. }
  rewrite blit_ok by assumption. cbn [obind]. rewrite M.
  set (p := padd _ _) in *. rewrite (app_assoc pre p).
  replace (length (pre ++ tsh lo)) with (length (pre ++ p)) by (rewrite !app_length, L1; reflexivity).
  rewrite blit_ok by (rewrite skipn_length, tsh_length; lia). rewrite <- !app_assoc. reflexivity.
Qed.

Lemma pair_up_app n : forall bs cs, length bs = (2 * n)%nat -> pair_up (bs ++ cs) = pair_up bs ++ pair_up cs.
Proof.
  induction n as [|n IH]; intros bs cs H.
  - destruct bs; [reflexivity|cbn in H; lia].
  - destruct bs as [|a [|b bs]]; cbn [length] in H; try lia. cbn [app pair_up]. rewrite IH by lia. reflexivity.
Qed.
Lemma two_last {A} (l : list A) n : length l = S (S n) -> exists l' a b, l = l' ++ [a; b] /\ length l' = n.
Proof.
  intros H. destruct (@exists_last _ l) as (l1 & b & ->); [intros ->; discriminate|].
  rewrite app_length in H. cbn in H. destruct (@exists_last _ l1) as (l2 & a & ->); [intros ->; cbn in H; lia|].
  rewrite app_length in H. cbn in H. exists l2, a, b. rewrite <- app_assoc. split; [reflexivity|lia].
Qed.
Lemma concat_len sz bs : Forall (fun b : list Z => length b = sz) bs -> length (concat bs) = (length bs * sz)%nat.
Proof. induction 1 as [|b bs Hb F IH]; [reflexivity|]. cbn [concat length]. rewrite app_length, IH. lia. Qed.

Lemma merge_down_ok sz s (Hsz : (1 <= sz)%nat) (Hs : is_pow sz s) nb fdeg n : forall bs post,
  length bs = (2 * n)%nat -> (n < nb)%nat -> Forall (fun b => length b = sz) bs ->
  merge_loop_down n nb sz fdeg s (concat (map tsh bs) ++ post) = Some (concat (map tsh (pair_up bs)) ++ post).
Proof.
  induction n as [|n IH]; intros bs post Hl Hn F.
  - destruct bs; [reflexivity|cbn in Hl; lia].
  - destruct (two_last bs (2 * n) ltac:(lia)) as (bs' & a & b & -> & Hl').
    apply Forall_app in F. destruct F as [F1 F2].
    pose proof (Forall_inv F2) as Ha. pose proof (Forall_inv (Forall_inv_tail F2)) as Hb. cbv beta in Ha, Hb.
    cbn [merge_loop_down]. replace (S n =? nb)%nat with false by (symmetry; apply Nat.eqb_neq; lia).
    rewrite map_app, concat_app. cbn [map concat]. rewrite app_nil_r.
    assert (Lp : length (concat (map tsh bs')) = (2 * n * sz)%nat).
    { rewrite concat_tsh_length, (concat_len sz) by assumption. rewrite Hl'. reflexivity. }
    rewrite <- Lp, <- (app_assoc _ (tsh a ++ tsh b)). rewrite <- Ha. rewrite merge_pair_plain_ok by (rewrite ?Ha; assumption || lia).
    cbn [obind]. rewrite Ha. rewrite IH by (assumption || lia).
    rewrite (pair_up_app n) by assumption. cbn [pair_up]. rewrite map_app, concat_app. cbn [map concat]. rewrite app_nil_r, app_assoc. reflexivity.
Qed.
Lemma blocks_split sz bs : blocks sz bs -> exists bs' b, bs = bs' ++ [b] /\ Forall (fun c => length c = sz) bs' /\ (2 <= length b)%nat.
Proof.
  induction 1 as [b Hb|b bs Hb H (bs' & c & -> & F & Hc)].
  - exists [], b. auto.
  - exists (b :: bs'), c. auto.
Qed.
Lemma merge_down_top sz s (Hsz : (1 <= sz)%nat) (Hs : is_pow sz s) nb fdeg bs :
  length bs = (2 * nb)%nat -> (1 <= nb)%nat -> blocks sz bs -> length (last bs []) = S fdeg ->
  merge_loop_down nb nb sz fdeg s (concat (map tsh bs)) = Some (concat (map tsh (pair_up bs))).
Proof.
  intros Hl Hn HB Hf. destruct (blocks_split _ _ HB) as (bs0 & b & -> & F & Hb).
  rewrite last_last in Hf. rewrite app_length in Hl. cbn [length] in Hl.
  destruct nb as [|n]; [lia|].
  destruct (@exists_last _ bs0) as (bs' & a & ->); [intros ->; cbn in Hl; lia|].
  rewrite app_length in Hl. cbn [length] in Hl. apply Forall_app in F. destruct F as [F1 F2]. pose proof (Forall_inv F2) as Ha. cbv beta in Ha.
  rewrite <- app_assoc. cbn [app].
  cbn [merge_loop_down]. rewrite Nat.eqb_refl.
  rewrite map_app, concat_app. cbn [map concat]. rewrite app_nil_r.
  assert (Lp : length (concat (map tsh bs')) = (2 * n * sz)%nat).
  { rewrite concat_tsh_length, (concat_len sz) by assumption. nia. }
  rewrite <- Lp, <- Ha.
  replace (concat (map tsh bs') ++ tsh a ++ tsh b) with (concat (map tsh bs') ++ (tsh a ++ tsh b) ++ []) by (rewrite app_nil_r; reflexivity).
  rewrite merge_pair_plain_ok by (rewrite ?Ha; assumption || lia).
  cbn [obind]. rewrite Ha. rewrite merge_down_ok by (assumption || lia).
  rewrite (pair_up_app n) by lia. cbn [pair_up]. rewrite map_app, concat_app. cbn [map concat]. reflexivity.
Qed.
Lemma level_loop_plain_ok deg tbl sz0 (Hsz0 : (2 <= sz0)%nat) cnt : forall i nb bs,
  length bs = nb -> nb = (2 ^ (cnt + 1))%nat -> blocks (sz0 * 2 ^ i) bs -> length (concat bs) = S deg ->
  good_table sz0 tbl (i + cnt) ->
  exists bs', level_loop_plain cnt i nb (sz0 * 2 ^ i) deg tbl (concat (map tsh bs)) =
      Some ((sz0 * 2 ^ (i + cnt))%nat, concat (map tsh bs')) /\
    blocks (sz0 * 2 ^ (i + cnt)) bs' /\ length bs' = 2%nat /\ concat bs' = concat bs.
Proof.
  induction cnt as [|cnt IH]; intros i nb bs Hl Hn HB Hd HT.
  - exists bs. rewrite Nat.add_0_r. cbn [level_loop_plain]. subst nb. cbn in Hn. auto.
  - cbn [level_loop_plain]. destruct (HT i ltac:(lia)) as (s & Es & Ps). rewrite Es. cbn [obind].
    assert (Hn2 : nb = (2 * 2 ^ (cnt + 1))%nat) by (rewrite Hn; reflexivity).
    assert (P0 : (1 <= 2 ^ (cnt + 1))%nat) by (pose proof (Nat.pow_nonzero 2 (cnt + 1)); lia).
    destruct (Nat.ltb_spec 1 nb); [|lia].
    replace (nb / 2)%nat with (2 ^ (cnt + 1))%nat by (rewrite Hn2, Nat.mul_comm, Nat.div_mul; lia).
    assert (P1 : (1 <= sz0 * 2 ^ i)%nat) by (pose proof (Nat.pow_nonzero 2 i); nia).
    assert (HF : length (last bs []) = S (deg - (nb - 1) * (sz0 * 2 ^ i))).
    { pose proof (blocks_concat _ _ HB) as C. pose proof (blocks_last _ _ HB) as L. rewrite Hd, Hl in C. lia. }
    rewrite (merge_down_top _ s P1 Ps); [|lia|assumption|assumption|assumption].
    cbn [obind].
    destruct (pair_up_blocks _ (2 ^ (cnt + 1)) bs ltac:(lia) P0 HB) as [B1 B2].
    assert (C1 : concat (pair_up bs) = concat bs) by (apply (pair_up_concat (length bs)); lia).
    replace (2 * (sz0 * 2 ^ i))%nat with (sz0 * 2 ^ S i)%nat in * by (cbn [Nat.pow]; lia).
    destruct (IH (S i) (2 ^ (cnt + 1))%nat (pair_up bs) B2 eq_refl B1) as (bs' & E1 & E2 & E3 & E4).
    + rewrite C1. assumption.
    + replace (S i + cnt)%nat with (i + S cnt)%nat by lia. assumption.
    + exists bs'. replace (i + S cnt)%nat with (S i + cnt)%nat by lia. rewrite E1. repeat split; auto. congruence.
Qed.

(** The function counts on the block-wise shift, then on the full shift. *)
Lemma dac_wsgnvar_unfold u deg tbl sz : length u = S deg -> deg <> 0%nat -> (2 <= sz)%nat ->
  good_table sz tbl (Nat.log2 (nblocks_of deg sz)) ->
  dac_wsgnvar u deg tbl sz = Some None \/
  exists bs, blocks sz bs /\ concat bs = u /\
    dac_wsgnvar u deg tbl sz =
      (let? nb := sgn_variations_bsize (concat (map tsh bs)) deg deg in
       match nb with Some O => Some (Some O) | _ => sgn_variations_bsize (tsh u) deg deg end).
Proof.
  intros Hl Hd Hsz HT. unfold dac_wsgnvar.
  destruct (Nat.leb_spec (nblocks_of deg sz) 1) as [L|L]; [left; reflexivity|right].
  pose proof (nblocks_bound deg sz ltac:(lia)) as B.
  destruct (nblocks_pow deg sz L) as (n & Hn1 & Hn2 & Hn3). rewrite Hn3 in *.
  destruct (cut_blocks sz ltac:(lia) (nblocks_of deg sz) u) as (bs & B1 & B2 & B3); [lia|lia|].
  exists bs. split; [assumption|]. split; [assumption|].
  assert (HF : length (last bs []) = S (deg - (nblocks_of deg sz - 1) * sz)).
  { pose proof (blocks_concat _ _ B1) as C. pose proof (blocks_last _ _ B1) as K. rewrite B3, Hl, B2 in C. lia. }
  destruct (blocks_split _ _ B1) as (bs0 & b & Eb & F & Hb).
  assert (L0 : length bs0 = (nblocks_of deg sz - 1)%nat) by (rewrite <- B2, Eb, app_length; cbn; lia).
  assert (Eu : u = concat bs0 ++ b ++ []) by (rewrite <- B3, Eb, concat_app; cbn; reflexivity).
  rewrite Eb, last_last in HF.
  assert (S1 : block_shift_plain u ((nblocks_of deg sz - 1) * sz) (deg - (nblocks_of deg sz - 1) * sz) = Some (concat bs0 ++ tsh b ++ [])).
  { rewrite <- L0, <- (concat_len sz) by assumption. rewrite (concat_len sz), L0 by assumption. rewrite Eu.
    replace ((nblocks_of deg sz - 1) * sz)%nat with (length (concat bs0)) by (rewrite (concat_len sz) by assumption; lia).
    apply block_shift_plain_ok; rewrite (concat_len sz) by assumption; rewrite L0; lia. }
  rewrite S1. cbn [obind].
  assert (S2 : block_loop_plain (nblocks_of deg sz - 1) 0 sz (concat bs0 ++ tsh b ++ []) = Some (concat (map tsh bs))).
  { rewrite <- L0. change (concat bs0 ++ tsh b ++ []) with ([] ++ concat bs0 ++ (tsh b ++ [])).
    rewrite block_loop_plain_ok by (assumption || reflexivity). rewrite Eb, map_app, concat_app. reflexivity. }
  rewrite S2. cbn [obind].
  destruct (sgn_variations_bsize (concat (map tsh bs)) deg deg) as [nb|]; [|reflexivity]. cbn [obind].
  assert (R : (let? r := level_loop_plain (n - 1) 0 (nblocks_of deg sz) sz deg tbl (concat (map tsh bs)) in
        let? shifted := nth_error tbl (n - 1) in
        let? u := merge_pair_plain (snd r) shifted 0 (fst r) (deg - fst r) in
        sgn_variations_bsize u deg deg) = sgn_variations_bsize (tsh u) deg deg); [|destruct nb as [[|?]|]; [reflexivity|exact R|exact R]].
  destruct (level_loop_plain_ok deg tbl sz Hsz (n - 1) 0 (nblocks_of deg sz) bs) as (bs' & E1 & E2 & E3 & E4).
  - assumption.
  - rewrite Hn2. f_equal. lia.
  - replace (sz * 2 ^ 0)%nat with sz by (cbn; lia). assumption.
  - rewrite B3. assumption.
  - intros j Hj. apply HT. lia.
  - replace (sz * 2 ^ 0)%nat with sz in E1 by (cbn; lia). rewrite E1. cbn [obind fst snd].
    destruct (HT (n - 1)%nat ltac:(lia)) as (s & Es & Ps). rewrite Es. cbn [obind].
    replace (0 + (n - 1))%nat with (n - 1)%nat in * by lia.
    destruct bs' as [|a [|b' [|? ?]]]; try discriminate.
    inversion_clear E2 as [|? ? Ha E5].
    rewrite <- Ha in *.
    assert (Hb' : (2 <= length b')%nat) by (inversion E5 as [|? ? ? E6]; [assumption|inversion E6]).
    assert (Hc : (length a + length b' = S deg)%nat).
    { rewrite <- Hl, <- B3, <- E4. cbn [concat]. rewrite app_nil_r, app_length. reflexivity. }
    cbn [map concat]. rewrite app_nil_r.
    pose proof (merge_pair_plain_ok [] a b' [] s (deg - length a) Ps ltac:(lia)) as M. cbn [app length] in M.
    rewrite !app_nil_r in M. rewrite M. cbn [obind]. do 2 f_equal. rewrite <- B3, <- E4. cbn [concat]. rewrite app_nil_r. reflexivity.
Qed.

(** ** Blocks whose shifts have all their coefficients of one sign *)
Definition onesign (c : Z) (l : list Z) : Prop := Forall (fun a => 0 < c * a) l.
Lemma onesign_padd c p : forall q, onesign c p -> onesign c q -> onesign c (padd p q).
Proof.
  induction p as [|a p IH]; intros [|b q] Hp Hq; cbn [padd]; auto.
  constructor; [pose proof (Forall_inv Hp); pose proof (Forall_inv Hq); cbv beta in *; lia|].
  apply IH; [exact (Forall_inv_tail Hp)|exact (Forall_inv_tail Hq)].
Qed.
Lemma onesign_pmul c p q : q <> [] -> onesign 1 p -> onesign c q -> onesign c (pmul p q).
Proof.
  intros Hq Hp Hc. induction p as [|a [|b p] IH]; [constructor| |].
  - cbn [pmul]. pose proof (Forall_inv Hp) as Ha. cbv beta in Ha. apply Forall_map. eapply Forall_impl; [|exact Hc]. cbv beta. intros x Hx. nia.
  - change (pmul (a :: b :: p) q) with (padd (map (Z.mul a) q) (0 :: pmul (b :: p) q)).
    pose proof (Forall_inv Hp) as Ha. cbv beta in Ha. specialize (IH (Forall_inv_tail Hp)).
    destruct q as [|d q]; [contradiction|]. cbn [map padd].
    pose proof (Forall_inv Hc) as Hd. cbv beta in Hd.
    constructor; [nia|]. apply onesign_padd; [|exact IH]. apply Forall_map.
    eapply Forall_impl; [|exact (Forall_inv_tail Hc)]. cbv beta. intros x Hx. nia.
Qed.
Lemma is_pow_onesign n : exists s, is_pow n s /\ onesign 1 s.
Proof.
  induction n as [|n (s & [L E] & F)].
  - exists [1]. split; [split; [reflexivity|intros x; cbn [zev]; rewrite Z.pow_0_r; ring]|]. repeat constructor.
  - exists (pmul [1; 1] s). assert (s <> []) by (destruct s; discriminate). split; [split|].
    + rewrite pmul_length by (assumption || discriminate). cbn [length]. lia.
    + intros x. rewrite zev_pmul, E, Nat2Z.inj_succ, Z.pow_succ_r by lia. cbn [zev]. ring.
    + apply onesign_pmul; [assumption|repeat constructor|assumption].
Qed.
Lemma onesign_app c p q : onesign c (p ++ q) <-> onesign c p /\ onesign c q.
Proof. apply Forall_app. Qed.
Lemma onesign_merge c lo hi : hi <> [] -> onesign c (tsh lo) -> onesign c (tsh hi) -> onesign c (tsh (lo ++ hi)).
Proof.
  intros Hh H1 H2. destruct (is_pow_onesign (length lo)) as (s & Ps & Fs).
  destruct (merge_tsh lo hi s Ps) as [->|K]; [|contradiction].
  assert (Ht : tsh hi <> []) by (intros K; pose proof (tsh_length hi) as L; rewrite K in L; destruct hi; [contradiction|discriminate]).
  pose proof (onesign_pmul c s (tsh hi) Ht Fs H2) as P.
  rewrite <- (firstn_skipn (length lo) (pmul s (tsh hi))) in P. apply onesign_app in P. destruct P as [P1 P2].
  apply onesign_app. split; [apply onesign_padd; assumption|assumption].
Qed.
Lemma onesign_blocks c sz bs : blocks sz bs -> (1 <= sz)%nat -> onesign c (concat (map tsh bs)) -> onesign c (tsh (concat bs)).
Proof.
  induction 1 as [b Hb|b bs Hb H IH]; intros Hsz F.
  - cbn [map concat] in *. rewrite app_nil_r in *. assumption.
  - cbn [map concat] in *. apply onesign_app in F. destruct F as [F1 F2]. apply onesign_merge; auto.
    intros E. pose proof (blocks_concat _ _ H) as C. pose proof (blocks_last _ _ H) as K. rewrite E in C. symmetry in C. apply Nat.eq_add_0 in C. lia.
Qed.
Lemma onesign_var c l : onesign c l -> variations l = 0%nat.
Proof.
  intros F. rewrite <- zchg0. assert (K : forall s, 0 < c * s \/ s = 0 -> zchg s l = 0%nat); [|apply K; auto].
  induction F as [|a l Ha F IH]; intros s Hs; [reflexivity|]. cbn [zchg].
  destruct (Z.ltb_spec (s * a) 0); [exfalso; destruct Hs as [Hs| ->]; [|lia]; nia|].
  destruct (a =? 0); apply IH; auto.
Qed.
Lemma var_onesign l : variations l = 0%nat -> (forall i, (i < length l)%nat -> nth i l 0 <> 0) -> onesign (nth 0 l 0) l.
Proof.
  intros V N. destruct l as [|a l]; [constructor|]. cbn [nth].
  assert (Ha : a <> 0) by (apply (N 0%nat); cbn; lia).
  rewrite <- zchg_start in V by assumption. constructor; [nia|].
  assert (N' : forall i, (i < length l)%nat -> nth i l 0 <> 0) by (intros i Hi; apply (N (S i)); cbn; lia).
  clear N. revert V N'. induction l as [|b l IH]; intros V N'; [constructor|].
  assert (Hb : b <> 0) by (apply (N' 0%nat); cbn; lia).
  cbn [zchg] in V. destruct (Z.ltb_spec (a * b) 0); [discriminate|].
  destruct (Z.eqb_spec b 0); [contradiction|].
  constructor; [nia|]. apply IH; [|intros i Hi; apply (N' (S i)); cbn; lia].
  rewrite (zchg_sign _ a b); [assumption|]. apply same_sign; lia.
Qed.

(** ** Blocks: position of a coefficient *)
Fixpoint blk (sz o : nat) (bs : list (list Z)) (P : nat -> list Z -> Prop) : Prop :=
  match bs with [] => True | b :: bs' => P o b /\ blk sz (o + length b) bs' P end.
Lemma concat_nth_tsh (t : Z) : forall bs o deg, 0 <= t -> (o + length (concat bs) = S deg)%nat -> forall i, (o + i < deg)%nat ->
  trusted deg deg (Nat.log2 deg) (o + i) (nth i (concat (map tsh (map (tr t) bs))) 0) ->
  Z.sgn (nth i (concat (map tsh bs)) 0) = Z.sgn (nth i (concat (map tsh (map (tr t) bs))) 0).
Proof.
  induction bs as [|b bs IH]; intros o deg Ht Hl i Hi T; [reflexivity|].
  cbn [map concat] in *. rewrite app_length in Hl.
  assert (L1 : length (tsh b) = length b) by apply tsh_length.
  assert (L2 : length (tsh (tr t b)) = length b) by (rewrite tsh_length; apply map_length).
  destruct (Nat.lt_ge_cases i (length b)) as [C|C].
  - rewrite !app_nth1 in * by lia. apply block_sign with deg o; auto. lia.
  - rewrite !app_nth2 in * by lia. rewrite L1, L2 in *.
    apply (IH (o + length b)%nat deg); try lia.
    replace (o + length b + (i - length b))%nat with (o + i)%nat by lia. assumption.
Qed.
Lemma blocks_tr sz t bs : blocks sz bs <-> blocks sz (map (tr t) bs).
Proof.
  split.
  - induction 1; [apply blocks_one; unfold tr; rewrite map_length; assumption|]. cbn [map]. apply blocks_cons; [unfold tr; rewrite map_length; assumption|assumption].
  - revert sz. induction bs as [|b bs IH]; intros sz H; cbn [map] in H; [inversion H|].
    inversion H as [? L|? ? L H']; subst.
    + destruct bs; [|discriminate]. apply blocks_one. unfold tr in L. rewrite map_length in L. assumption.
    + apply blocks_cons; [symmetry; unfold tr in *; apply map_length|auto].
Qed.
Lemma tr_blocks_inv t u : forall bs, concat bs = tr t u -> exists bs', concat bs' = u /\ map (tr t) bs' = bs.
Proof.
  intros bs. revert u. induction bs as [|b bs IH]; intros u H; cbn [concat] in H.
  - exists []. split; [|reflexivity]. destruct u; [reflexivity|discriminate].
  - assert (E1 : tr t (firstn (length b) u) = b).
    { unfold tr in *. rewrite <- firstn_map, <- H, firstn_app, Nat.sub_diag, firstn_all. cbn. apply app_nil_r. }
    assert (E2 : concat bs = tr t (skipn (length b) u)).
    { unfold tr in *. rewrite <- skipn_map, <- H, skipn_app, Nat.sub_diag, skipn_all. reflexivity. }
    destruct (IH _ E2) as (bs' & C1 & C2). exists (firstn (length b) u :: bs'). cbn [concat map]. split; [rewrite C1; apply firstn_skipn|congruence].
Qed.

Lemma tr_lead t l i : 0 <= t -> nth i (tr t l) 0 <> 0 -> Z.sgn (nth i l 0) = Z.sgn (nth i (tr t l) 0).
Proof.
  intros Ht. unfold tr. rewrite nth_map0 by (apply Z.quot_0_l; pose proof (Z.pow_pos_nonneg 2 t); lia). set (a := nth i l 0). intros H.
  pose proof (Z.pow_pos_nonneg 2 t ltac:(lia) Ht) as P.
  destruct (Z.sgn_spec a) as [[A ->]|[[A ->]|[A ->]]].
  - symmetry. apply Z.sgn_pos. pose proof (Z.quot_pos a (2 ^ t)). lia.
  - exfalso. apply H. rewrite <- A. apply Z.quot_0_l. lia.
  - symmetry. apply Z.sgn_neg. pose proof (Z.quot_opp_l (- a) (2 ^ t) ltac:(lia)) as Q. rewrite Z.opp_involutive in Q.
    pose proof (Z.quot_pos (- a) (2 ^ t)). lia.
Qed.
Lemma nth_concat_last sz bs d : blocks sz bs -> length (concat bs) = S d -> nth d (concat (map tsh bs)) 0 = nth d (concat bs) 0.
Proof.
  intros HB Hd. destruct (blocks_split _ _ HB) as (bs' & b & -> & F & Hb).
  rewrite map_app, !concat_app in *. cbn [map concat] in *. rewrite !app_nil_r in *. rewrite app_length in Hd.
  rewrite !app_nth2 by (rewrite ?concat_tsh_length; lia). rewrite concat_tsh_length.
  replace (d - length (concat bs'))%nat with (length b - 1)%nat by lia. apply tsh_last. destruct b; [cbn in Hb; lia|discriminate].
Qed.

(** Soundness of the truncated count: an answer, when there is one, is the exact one. *)
Lemma dac_wsgnvar_ok u t deg tbl sz : length u = S deg -> deg <> 0%nat -> (2 <= sz)%nat -> 0 <= t ->
  good_table sz tbl (Nat.log2 (nblocks_of deg sz)) -> nth deg (tr t u) 0 <> 0 ->
  exists r, dac_wsgnvar (tr t u) deg tbl sz = Some r /\ forall n, r = Some n -> n = Nat.min 3 (variations (tsh u)).
Proof.
  intros Hl Hd Hsz Ht HT Hn.
  assert (Hl' : length (tr t u) = S deg) by (unfold tr; rewrite map_length; assumption).
  destruct (dac_wsgnvar_unfold (tr t u) deg tbl sz Hl' Hd Hsz HT) as [E|(bs0 & HB0 & HC & E)]; [exists None; split; [assumption|intros; discriminate]|].
  rewrite E. destruct (tr_blocks_inv t u bs0 HC) as (bs & C1 & C2). subst bs0.
  assert (HB : blocks sz bs) by (apply (proj2 (blocks_tr sz t bs)); assumption).
  assert (SL : Z.sgn (nth deg u 0) = Z.sgn (nth deg (tr t u) 0)) by (apply tr_lead; assumption).
  assert (La : length (concat (map tsh (map (tr t) bs))) = S deg) by (rewrite concat_tsh_length, HC; assumption).
  assert (Lb : length (concat (map tsh bs)) = S deg) by (rewrite concat_tsh_length, C1; assumption).
  destruct (bsize_ok (concat (map tsh (map (tr t) bs))) (concat (map tsh bs)) deg La Lb Hd) as (r1 & E1 & R1).
  { rewrite (nth_concat_last sz bs) by (rewrite ?C1; assumption). rewrite (nth_concat_last sz (map (tr t) bs)) by (rewrite ?HC; assumption).
    rewrite C1, HC. assumption. }
  { intros j Hj. apply (concat_nth_tsh t bs 0 deg Ht); [rewrite C1; assumption|lia]. }
  rewrite E1. cbn [obind].
  destruct (bsize_ok (tsh (tr t u)) (tsh u) deg ltac:(rewrite tsh_length; assumption) ltac:(rewrite tsh_length; assumption) Hd) as (r2 & E2 & R2).
  { pose proof (tsh_last u) as T1. pose proof (tsh_last (tr t u)) as T2. rewrite Hl in T1. rewrite Hl' in T2.
    replace (S deg - 1)%nat with deg in * by lia. rewrite T1, T2; [assumption| |]; intros K; rewrite K in *; discriminate. }
  { intros j Hj. apply (block_sign t deg 0 u); auto; lia. }
  rewrite E2.
  assert (G : forall n, r2 = Some n -> n = Nat.min 3 (variations (tsh u))) by (intros n En; apply (R2 n En)).
  destruct r1 as [[|n1]|]; try (exists r2; split; [reflexivity|exact G]).
  exists (Some 0%nat). split; [reflexivity|]. intros n [= <-].
  destruct (R1 0%nat eq_refl) as [V0 TT]. specialize (TT eq_refl).
  assert (V : variations (concat (map tsh bs)) = 0%nat) by lia.
  assert (NZ : forall i, (i < length (concat (map tsh bs)))%nat -> nth i (concat (map tsh bs)) 0 <> 0).
  { intros i Hi. rewrite Lb in Hi. destruct (Nat.eq_dec i deg) as [->|Ni].
    - rewrite (nth_concat_last sz bs) by (rewrite ?C1; assumption). rewrite C1. intros K. rewrite K in SL. symmetry in SL. apply Hn. apply Z.sgn_null_iff. exact SL.
    - specialize (TT i ltac:(lia)). pose proof (concat_nth_tsh t bs 0 deg Ht ltac:(rewrite C1; assumption) i ltac:(lia) TT) as S1.
      destruct TT as [_ T2]. intros K. rewrite K in S1. symmetry in S1. apply T2. apply Z.sgn_null_iff. exact S1. }
  pose proof (onesign_blocks _ sz bs HB ltac:(lia) (var_onesign _ V NZ)) as O. rewrite C1 in O. rewrite (onesign_var _ _ O). reflexivity.
Qed.

Lemma sizeb_pos a : 1 <= sizeb a.
Proof. unfold sizeb. destruct (a =? 0); [lia|]. pose proof (Z.log2_nonneg (Z.abs a)). lia. Qed.
Lemma truncation_ok lead nbits deg : lead <> 0 -> 0 <= truncation lead nbits deg /\ Z.quot lead (2 ^ truncation lead nbits deg) <> 0.
Proof.
  intros H. unfold truncation. pose proof (sizeb_pos lead) as P. set (t0 := Z.modulo _ _).
  assert (T0 : 0 <= t0) by (apply Z.mod_pos_bound; reflexivity).
  set (t := if sizeb lead <=? t0 then sizeb lead - 1 else t0). assert (T : 0 <= t < sizeb lead) by (subst t; destruct (Z.leb_spec (sizeb lead) t0); lia).
  clearbody t. split; [apply T|]. unfold sizeb in T. destruct (Z.eqb_spec lead 0); [contradiction|].
  pose proof (Z.log2_spec (Z.abs lead) ltac:(lia)) as [B _].
  assert (B2 : 2 ^ t <= Z.abs lead) by (apply Z.le_trans with (2 := B); apply Z.pow_le_mono_r; lia).
  pose proof (Z.pow_pos_nonneg 2 t ltac:(lia) ltac:(lia)) as Pt.
  intros Q. apply Z.quot_small_iff in Q; lia.
Qed.

(** The whole test. [u] has nonzero constant term. *)
Theorem descartes_ok u deg tbl sz : length u = S deg -> deg <> 0%nat -> (2 <= sz)%nat ->
  good_table sz tbl (Nat.log2 (nblocks_of deg sz)) -> nth 0 u 0 <> 0 ->
  descartes u deg tbl sz = Some (Nat.min 3 (variations (tsh (rev u)))).
Proof.
  intros Hl Hd Hsz HT Hn. unfold descartes.
  assert (Lr : length (rev u) = S deg) by (rewrite rev_length; assumption).
  assert (Nr : nth deg (rev u) 0 = nth 0 u 0) by (rewrite rev_nth by lia; f_equal; lia).
  unfold descartes_truncate. rewrite getz_some by lia. cbn [obind]. rewrite Nr.
  destruct (truncation_ok (nth 0 u 0) (max_bsize u) deg Hn) as [T1 T2]. set (t := truncation _ _ _) in *.
  change (map (fun a => Z.quot a (2 ^ t)) (rev u)) with (tr t (rev u)).
  destruct (dac_wsgnvar_ok (rev u) t deg tbl sz Lr Hd Hsz T1 HT) as (r & E & R).
  { unfold tr. rewrite nth_map0 by (apply Z.quot_0_l; pose proof (Z.pow_pos_nonneg 2 t); lia). rewrite Nr. assumption. }
  rewrite E. cbn [obind]. destruct r as [n|]; [rewrite (R n eq_refl); reflexivity|].
  rewrite dac_ok by assumption. cbn [obind]. apply sgn_variations_ok; [rewrite tsh_length; assumption|assumption|].
  pose proof (tsh_last (rev u)) as T. rewrite Lr in T. replace (S deg - 1)%nat with deg in T by lia.
  rewrite T, Nr; [assumption|]. intros K. rewrite K in Lr. discriminate.
Qed.
(** With blocks at least as long as the polynomial no table is used, whatever the block size. *)
Theorem descartes_ok_small u deg tbl sz : length u = S deg -> deg <> 0%nat -> (deg <= sz)%nat -> nth 0 u 0 <> 0 ->
  descartes u deg tbl sz = Some (Nat.min 3 (variations (tsh (rev u)))).
Proof.
  intros Hl Hd Hsz Hn. unfold descartes.
  assert (Lr : length (rev u) = S deg) by (rewrite rev_length; assumption).
  assert (Nr : nth deg (rev u) 0 = nth 0 u 0) by (rewrite rev_nth by lia; f_equal; lia).
  unfold descartes_truncate, dac_wsgnvar, taylorshift1_dac, nblocks_of. rewrite getz_some by lia. cbn [obind].
  destruct (Nat.leb_spec deg sz); [|lia]. cbn [Nat.leb obind].
  rewrite naive_ok by assumption. cbn [obind]. apply sgn_variations_ok; [rewrite tsh_length; assumption|assumption|].
  pose proof (tsh_last (rev u)) as T. rewrite Lr in T. replace (S deg - 1)%nat with deg in T by lia.
  rewrite T, Nr; [assumption|]. intros K. rewrite K in Lr. discriminate.
Qed.
