(** Proofs about the exact sparse-dense linear algebra: dense rows, column steps, one row of the parallel loop. *)
From Coq Require Import ZArith Arith List Bool Lia Znumtheory Setoid Morphisms Sorted.
From Verif Require Import ModInvModel ModInvProofs LinSpec LaSpec LaModel LaProofs LaRowProofs LaSysProofs DlaModel.
Import ListNotations.
Open Scope Z_scope.

(** ** Dense rows as rows *)
Definition drw (c : nat) (e : list Z) : srow := combine (seq c (length e)) e.
Lemma drow_ok ncr c e : length e = (ncr - c)%nat -> drow ncr c e = Some (drw c e).
Proof. intros H. unfold drow. rewrite H, Nat.eqb_refl. unfold drw. rewrite H. reflexivity. Qed.
Lemma drw_cons c x e : drw c (x :: e) = (c, x) :: drw (S c) e.
Proof. reflexivity. Qed.
Lemma drw_fst e : forall c, map fst (drw c e) = seq c (length e).
Proof. induction e as [|x e IH]; intros c; [reflexivity|]. rewrite drw_cons. cbn [map fst length seq]. rewrite IH. reflexivity. Qed.
Lemma drw_in e : forall c t, In t (drw c e) -> (c <= fst t < c + length e)%nat /\ snd t = dv e (fst t - c)%nat.
Proof.
  induction e as [|x e IH]; intros c t H; [destruct H|]. rewrite drw_cons in H. destruct H as [<-|H]; cbn [fst snd length].
  - split; [lia|]. rewrite Nat.sub_diag. reflexivity.
  - destruct (IH (S c) t H) as (H1 & H2). split; [lia|]. replace (fst t - c)%nat with (S (fst t - S c)) by lia. assumption.
Qed.
Lemma drw_rv e : forall c j, rv (drw c e) j = if (c <=? j)%nat then dv e (j - c)%nat else 0.
Proof.
  induction e as [|x e IH]; intros c j; [cbn; destruct (c <=? j)%nat; [destruct (j - c)%nat; reflexivity|reflexivity]|].
  rewrite drw_cons. cbn [rv fst snd]. rewrite IH. destruct (Nat.eqb_spec c j) as [->|].
  - rewrite Nat.leb_refl, Nat.sub_diag. destruct (Nat.leb_spec (S j) j); [lia|]. cbn. lia.
  - destruct (Nat.leb_spec (S c) j); destruct (Nat.leb_spec c j); try lia.
    replace (j - c)%nat with (S (j - S c)) by lia. reflexivity.
Qed.
Lemma drw_pivot p ncr c e : (forall j, 0 <= dv (1 :: e) j < p) -> (S (length e) = ncr - c)%nat -> pivot_row p ncr c (drw c (1 :: e)).
Proof.
  intros Hb Hl. split; [rewrite drw_fst; apply seq_NoDup|]. split; [|split].
  - intros t Ht. apply drw_in in Ht. destruct Ht as (_ & ->). apply Hb.
  - intros t Ht. apply drw_in in Ht. cbn [length] in Ht. lia.
  - exists (drw (S c) e). split; [reflexivity|]. intros t Ht. apply drw_in in Ht. lia.
Qed.
(** dense pivots *)
Definition sp (P : nat -> option (list Z)) : nat -> option srow := fun c => match P c with Some e => Some (drw c e) | None => None end.
Definition dpok (p : Z) (ncr : nat) (P : nat -> option (list Z)) : Prop :=
  forall c e, P c = Some e -> (forall j, 0 <= dv e j < p) /\ (c < ncr)%nat /\ length e = (ncr - c)%nat /\ exists e', e = 1 :: e'.
Lemma dpok_row p ncr P c e : dpok p ncr P -> P c = Some e -> pivot_row p ncr c (drw c e).
Proof.
  intros H E. destruct (H c e E) as (Hb & Hc & Hl & e' & ->). apply drw_pivot; [assumption|]. cbn [length] in Hl. lia.
Qed.
Lemma dpok_sp p ncr P : dpok p ncr P -> pivots_ok p ncr (sp P).
Proof. intros H c r E. unfold sp in E. destruct (P c) as [e|] eqn:Ee; [|discriminate]. injection E as <-. apply (dpok_row p ncr P); assumption. Qed.
Lemma sp_none P c : sp P c = None <-> P c = None.
Proof. unfold sp. destruct (P c); split; intros; congruence. Qed.
Lemma sp_set P c e : forall j, sp (dset P c e) j = pset (sp P) c (drw c e) j.
Proof. intros j. unfold sp, dset, pset. destruct (Nat.eqb_spec j c) as [->|]; reflexivity. Qed.
Lemma dpok_set p ncr P c e : dpok p ncr P -> (forall j, 0 <= dv (1 :: e) j < p) -> (c < ncr)%nat -> (S (length e) = ncr - c)%nat -> dpok p ncr (dset P c (1 :: e)).
Proof.
  intros H Hb Hc Hl c' e'. unfold dset. destruct (Nat.eqb_spec c' c) as [->|]; [|apply H]. intros [= <-]. split; [assumption|]. split; [assumption|]. split; [assumption|]. eauto.
Qed.
Definition le_dp (P Q : nat -> option (list Z)) : Prop := forall c e, P c = Some e -> Q c = Some e.
Lemma le_dp_sp P Q : le_dp P Q -> le_pivs (sp P) (sp Q).
Proof. intros H c r E. unfold sp in *. destruct (P c) as [e|] eqn:Ee; [|discriminate]. rewrite (H c e Ee). assumption. Qed.
Lemma le_dp_none P Q c : le_dp P Q -> P c <> None -> Q c <> None.
Proof. intros H HP. destruct (P c) as [r|] eqn:E; [|contradiction]. rewrite (H c r E). discriminate. Qed.
Lemma dset_fresh P c e : P c = None -> le_dp P (dset P c e).
Proof. intros H c' e' E. unfold dset. destruct (Nat.eqb_spec c' c) as [->|]; [congruence|assumption]. Qed.

(** ** Normalisation and extraction *)
Lemma dv_map_mod (f : Z -> Z) e j : f 0 = 0 -> dv (map f e) j = f (dv e j).
Proof. intros H. unfold dv. rewrite <- H at 1. apply map_nth. Qed.
Lemma monic_dense_ok k p x t : prime p -> kern_ok k p -> 0 < x < p -> (forall j, 0 <= dv (x :: t) j < p) ->
  exists y e', monic_dense k p (x :: t) = Some (1 :: e') /\ length e' = length t /\ 0 < y < p /\ eqp p (y * x) 1 /\
  (forall j, 0 <= dv (1 :: e') j < p) /\ (forall j, eqp p (dv (1 :: e') j) (y * dv (x :: t) j)).
Proof.
  intros HP HK Hx Hb. assert (Hp : 2 <= p) by apply HK. unfold monic_dense. destruct (Z.eqb_spec x 1) as [->|Hx1].
  - exists 1, t. split; [reflexivity|]. split; [reflexivity|]. split; [lia|]. split; [exists 0; ring|]. split; [assumption|]. intros j. exists 0. ring.
  - unfold normalize_dense. change (combine (seq 0 (length (x :: t))) (x :: t)) with ((O, x) :: drw 1 t).
    destruct (normalize_row_ok k p (O, x) (drw 1 t) HP HK Hx) as (r' & y & -> & Hy & Hm & _ & -> & _). cbn [obind fst snd map] in *.
    assert (E : map snd (map (scale1 k p y) (drw 1 t)) = map (fun a => (a * y) mod p) t).
    { rewrite map_map. cbn [scale1 snd]. clear. generalize 1%nat as c. induction t as [|a t IH]; intros c; [reflexivity|]. rewrite drw_cons. cbn [map snd]. rewrite IH. reflexivity. }
    rewrite E. exists y, (map (fun a => (a * y) mod p) t). split; [reflexivity|]. split; [apply map_length|]. split; [assumption|]. split; [assumption|].
    assert (F0 : (0 * y) mod p = 0) by (apply Z.mod_0_l; lia).
    assert (V : forall j, dv (map (fun a => (a * y) mod p) t) j = (dv t j * y) mod p) by (intros j; apply (dv_map_mod (fun a => (a * y) mod p)); assumption).
    split; intros [|j].
    + cbn. lia.
    + change (dv (1 :: ?l) (S j)) with (dv l j). rewrite V. apply Z.mod_pos_bound. lia.
    + cbn. symmetry. assumption.
    + change (dv (1 :: ?l) (S j)) with (dv l j). change (dv (x :: t) (S j)) with (dv t j). rewrite V, (eqp_mod p) by lia. exists 0. ring.
Qed.
Lemma dreduce_dv p c dr j : 2 <= p -> (forall j, 0 <= dv dr j) -> dv (dreduce_entries p c dr) j = if (j <? c)%nat then dv dr j else dv dr j mod p.
Proof.
  intros Hp Hb. unfold dreduce_entries.
  assert (F : forall d, 0 <= d -> (if d =? 0 then d else Z.rem d p) = d mod p).
  { intros d Hd. destruct (Z.eqb_spec d 0) as [->|_]; [symmetry; apply Z.mod_0_l; lia|]. apply Z.rem_mod_nonneg; lia. }
  destruct (Nat.lt_ge_cases c (length dr)) as [Hc|Hc].
  - unfold dv at 1. destruct (Nat.ltb_spec j c) as [Hj|Hj].
    + rewrite app_nth1 by (rewrite firstn_length; lia). unfold dv. rewrite <- (firstn_skipn c dr) at 2. rewrite app_nth1 by (rewrite firstn_length; lia). reflexivity.
    + rewrite app_nth2 by (rewrite firstn_length; lia). rewrite firstn_length. replace (Nat.min c (length dr)) with c by lia.
      change (nth (j - c) ?l 0) with (dv l (j - c)%nat). rewrite (dv_map_mod (fun d => if d =? 0 then d else Z.rem d p)) by reflexivity.
      rewrite dv_skipn. replace (c + (j - c))%nat with j by lia. apply F, Hb.
  - rewrite firstn_all2, skipn_all2 by lia. cbn [map]. rewrite app_nil_r. destruct (Nat.ltb_spec j c); [reflexivity|]. rewrite dv_overflow by lia. symmetry. apply Z.mod_0_l. lia.
Qed.
Lemma dreduce_length p c dr : length (dreduce_entries p c dr) = length dr.
Proof. unfold dreduce_entries. rewrite app_length, map_length, <- app_length, firstn_skipn. reflexivity. Qed.
Lemma skipn_head (l : list Z) c : (c < length l)%nat -> exists t, skipn c l = dv l c :: t /\ (S (length t) = length l - c)%nat.
Proof.
  intros H. assert (L := skipn_length c l). destruct (skipn c l) as [|x t] eqn:E; [cbn in L; lia|]. exists t. split; [|cbn in L; lia].
  f_equal. pose proof (dv_skipn c l 0) as V. rewrite E, Nat.add_0_r in V. exact V.
Qed.
Lemma extract_ok k p ncr c dr : prime p -> kern_ok k p -> length dr = ncr -> (c < ncr)%nat -> (forall j, 0 <= dv dr j) -> 0 < dv dr c < p ->
  exists dr' e' y, extract k p c dr = Some (dr', 1 :: e') /\ length dr' = ncr /\ (forall j, (j < c)%nat -> dv dr' j = dv dr j) /\
  (forall j, (c <= j)%nat -> dv dr' j = dv dr j mod p) /\ (S (length e') = ncr - c)%nat /\ (forall j, 0 <= dv (1 :: e') j < p) /\
  0 < y < p /\ eqp p (y * dv dr c) 1 /\ forall j, eqp p (dv (1 :: e') j) (y * dv dr (c + j)%nat).
Proof.
  intros HP HK HL Hc Hb Hx. assert (Hp : 2 <= p) by apply HK. pose proof (bits_ok k p HK) as HB. unfold extract.
  set (dr' := dreduce_entries p c dr). assert (L' : length dr' = ncr) by (unfold dr'; rewrite dreduce_length; assumption).
  assert (V : forall j, dv dr' j = if (j <? c)%nat then dv dr j else dv dr j mod p) by (intros j; apply dreduce_dv; assumption).
  assert (W : map (fun d => d mod 2 ^ cfbits k) (skipn c dr') = skipn c dr').
  { apply dv_ext; [apply map_length|]. intros j. rewrite (dv_map_mod (fun d => d mod 2 ^ cfbits k)) by reflexivity. rewrite dv_skipn, V.
    destruct (Nat.ltb_spec (c + j) c); [lia|]. pose proof (Z.mod_pos_bound (dv dr (c + j)%nat) p ltac:(lia)). apply Z.mod_small. lia. }
  rewrite W. destruct (skipn_head dr' c ltac:(lia)) as (t & Et & Lt).
  assert (Hh : dv dr' c = dv dr c). { rewrite V, Nat.ltb_irrefl. apply Z.mod_small. lia. }
  assert (Hv : forall j, dv (dv dr c :: t) j = dv dr (c + j)%nat mod p).
  { intros j. rewrite <- Hh, <- Et, dv_skipn, V. destruct (Nat.ltb_spec (c + j) c); [lia|reflexivity]. }
  rewrite Et, Hh. destruct (monic_dense_ok k p (dv dr c) t HP HK Hx) as (y & e' & -> & Le & Hy & Hm & Hb' & Hv').
  { intros j. rewrite Hv. apply Z.mod_pos_bound. lia. }
  cbn [obind]. exists dr', e', y. split; [reflexivity|]. split; [assumption|]. split; [intros j Hj; rewrite V; destruct (Nat.ltb_spec j c); [reflexivity|lia]|].
  split; [intros j Hj; rewrite V; destruct (Nat.ltb_spec j c); [lia|reflexivity]|]. split; [lia|]. split; [assumption|]. split; [assumption|]. split; [assumption|].
  intros j. rewrite Hv', Hv, (eqp_mod p) by lia. reflexivity.
Qed.

(** ** One column *)
Lemma pt_lead k p d : kern_ok k p -> 0 < d < p -> exists x, pt k (p * p) (kmul k p d) 1 d = Some x /\ 0 <= x <= p.
Proof.
  intros HK Hd. pose proof (kern_pp k p HK) as Hpp. destruct HK as (H2 & HK). unfold pt, seqo. destruct k; cbn [kmul kadd kfix].
  - rewrite (Z.mod_small (p - d)) by lia. rewrite Z.mod_small by lia. rewrite chk_some by lia. cbn [obind]. eexists. split; [reflexivity|lia].
  - rewrite (Z.mod_small (p - d)) by lia. rewrite Z.mod_small by lia. rewrite chk_some by lia. cbn [obind]. eexists. split; [reflexivity|lia].
  - rewrite chk_some by lia. cbn [obind]. rewrite chk_some by lia. cbn [obind]. eexists. split; [reflexivity|lia].
  - rewrite chk_some by lia. cbn [obind]. rewrite chk_some by lia. cbn [obind]. replace (d - d * 1) with 0 by ring. change (Z.shiftr 0 63) with 0. rewrite Z.land_0_l, chk_some by lia.
    eexists. split; [reflexivity|lia].
Qed.
Lemma apply_row_lead k p ncols n c r e dr dr' : kern_ok k p -> kroom k p (S n) -> pivot_row p ncols c r -> length dr = ncols -> (forall j, 0 <= dv dr j < kb k p n) ->
  0 < e < p -> dv dr c = e -> apply_row k p e r dr = Some dr' -> 0 <= dv dr' c <= p.
Proof.
  intros HK HR (ND & HC & HL & r' & Er & Hgt) Hlen Hb He Ec E.
  destruct (apply_row_upds k p e r dr) as (d2 & E2 & (L & N & U)).
  - pose proof (kern_pp k p HK). lia.
  - assumption.
  - intros t Ht. split; [rewrite Hlen; auto|]. destruct (pt_ok k p n e (snd t) (dv dr (fst t)) HK HR He (HC t Ht) (Hb _)) as (x & -> & _). discriminate.
  - assert (d2 = dr') by congruence. subst d2. specialize (U (c, 1)). cbn [fst snd] in U. rewrite Ec in U.
    destruct (pt_lead k p e HK He) as (x & Ex & Hx). rewrite Ex in U. rewrite Er in U. specialize (U (or_introl eq_refl)). injection U as <-. assumption.
Qed.
Lemma dcol_step_ok k p ncr n P i dr : kern_ok k p -> kroom k p (S n) -> (i < ncr)%nat -> length dr = ncr -> dpok p ncr P -> (forall j, 0 <= dv dr j < kb k p n) ->
  exists dr' b, dcol_step k p ncr (P i) i dr = Some (dr', b) /\ length dr' = ncr /\ (forall j, 0 <= dv dr' j < kb k p (S n)) /\
  (forall j, (j < i)%nat -> dv dr' j = dv dr j) /\ 0 <= dv dr' i <= p /\
  (if b then P i = None /\ 0 < dv dr' i < p else eqp p (dv dr' i) 0) /\ (P i <> None -> b = false) /\
  span p (pset_of (sp P)) (fun j => dv dr j - dv dr' j) /\ (P i = None -> dv dr' i = dv dr i mod p) /\ (P i = None -> ~ eqp p (dv dr i) 0 -> b = true).
Proof.
  intros HK HR Hi Hlen HPv Hb. unfold dcol_step. rewrite drd_dv by lia. cbn [obind].
  assert (Hp : 2 <= p) by apply HK.
  set (d := if dv dr i =? 0 then dv dr i else Z.rem (dv dr i) p).
  assert (Hd : d = dv dr i mod p).
  { unfold d. destruct (Z.eqb_spec (dv dr i) 0) as [->|_]; [symmetry; apply Z.mod_0_l; lia|]. apply Z.rem_mod_nonneg; [apply Hb|lia]. }
  assert (Hdr : 0 <= d < p) by (rewrite Hd; apply Z.mod_pos_bound; lia).
  assert (Hde : eqp p d (dv dr i)) by (rewrite Hd; apply eqp_mod; lia).
  destruct (dwr_ok dr i d) as (dr0 & E0 & L0 & V0); [lia|]. rewrite E0. cbn [obind].
  assert (Hkb : kb k p n <= kb k p (S n)) by (apply kb_le; [lia|assumption]).
  assert (Hle : d <= dv dr i).
  { rewrite Hd. apply Z.mod_le; [apply Hb|lia]. }
  assert (Hb0 : forall j, 0 <= dv dr0 j < kb k p n).
  { intros j. rewrite V0. destruct (j =? i)%nat; [|apply Hb]. specialize (Hb i). lia. }
  assert (Heq0 : forall j, eqp p (dv dr0 j) (dv dr j)).
  { intros j. rewrite V0. destruct (Nat.eqb_spec j i) as [->|]; [assumption|reflexivity]. }
  assert (Hlt0 : forall j, (j < i)%nat -> dv dr0 j = dv dr j).
  { intros j Hj. rewrite V0. destruct (Nat.eqb_spec j i); [lia|reflexivity]. }
  assert (Hi0 : dv dr0 i = d) by (rewrite V0, Nat.eqb_refl; reflexivity).
  assert (Hs0 : span p (pset_of (sp P)) (fun j => dv dr j - dv dr0 j)).
  { apply span_veq0. intros j. rewrite Heq0. exists 0. unfold vzero. ring. }
  destruct (Z.eqb_spec d 0) as [Ed|Ed].
  - exists dr0, false. split; [reflexivity|]. split; [lia|]. split; [intros j; specialize (Hb0 j); lia|]. split; [assumption|]. rewrite Hi0. split; [lia|].
    split; [rewrite Ed; reflexivity|]. split; [reflexivity|]. split; [assumption|]. split; [auto|]. intros _ Hn. exfalso. apply Hn. rewrite <- Hde, Ed. reflexivity.
  - destruct (P i) as [e|] eqn:Ep.
    + assert (Hrow := dpok_row p ncr P i e HPv Ep). destruct (HPv i e Ep) as (_ & _ & Hle' & _). rewrite drow_ok by assumption. cbn [obind].
      destruct (apply_row_ok k p ncr n i (drw i e) d dr0 HK HR Hrow) as (dr1 & E1 & L1 & Q1 & B1 & C1); [lia|lia|assumption|].
      rewrite E1. cbn [obind]. exists dr1, false. split; [reflexivity|]. split; [assumption|]. split; [assumption|]. split; [intros j Hj; rewrite B1, Hlt0 by assumption; reflexivity|].
      split; [apply (apply_row_lead k p ncr n i (drw i e) d dr0 dr1); auto; lia|].
      split; [rewrite Q1, Hi0, (pivot_lead p ncr i (drw i e) Hrow); exists 0; ring|]. split; [reflexivity|]. split; [|split; discriminate].
      eapply span_eq with (u := fun j => d * rv (drw i e) j).
      * apply span_scale, span_in. exists i, (drw i e). split; [unfold sp; rewrite Ep; reflexivity|reflexivity].
      * intros j. rewrite Q1, Heq0. exists 0. ring.
    + exists dr0, true. split; [reflexivity|]. split; [lia|]. split; [intros j; specialize (Hb0 j); lia|]. split; [assumption|]. rewrite Hi0. split; [lia|].
      split; [split; [reflexivity|lia]|]. split; [contradiction|]. split; [assumption|]. auto.
Qed.

(** ** One row of the parallel loop *)
Definition lead (np : option nat) (i : nat) : nat := match np with Some c => c | None => i end.
Definition drinv (k : kern) (p : Z) (ncr : nat) (P : nat -> option (list Z)) (v0 : vec) (m : nat) (s : dstate) : Prop :=
  match s with
  | DTodo row => length row = ncr /\ (forall j, 0 <= dv row j < p) /\ v0 = dv row /\ m = budget ncr
  | DRed i dr np => (i <= ncr)%nat /\ length dr = ncr /\ (forall j, (j < i)%nat -> 0 <= dv dr j <= p) /\ (forall j, 0 <= dv dr j < kb k p (S i)) /\
      (forall j, (j < lead np i)%nat -> eqp p (dv dr j) 0) /\ (forall c, np = Some c -> (c < i)%nat /\ 0 < dv dr c < p) /\
      span p (pset_of (sp P)) (fun j => v0 j - dv dr j) /\
      exists b, (b <= ncr)%nat /\ (forall c, np = Some c -> (b <= c)%nat) /\ ((b <= i)%nat \/ b = S i /\ P i <> None /\ np = None) /\
      (m + b * (ncr + 3) = (ncr + 1) * (ncr + 3) + (ncr - i) + 2)%nat
  | DCas dr c e => (exists e', e = 1 :: e') /\ (forall j, 0 <= dv e j < p) /\ (c < ncr)%nat /\ length e = (ncr - c)%nat /\ length dr = ncr /\
      (forall j, 0 <= dv dr j <= p) /\ (forall j, (j < c)%nat -> eqp p (dv dr j) 0) /\ span p (pset_of (sp P)) (fun j => v0 j - dv dr j) /\
      (exists a, forall j, eqp p (dv dr j) (a * rv (drw c e) j)) /\ (exists y, forall j, eqp p (rv (drw c e) j) (y * dv dr j)) /\
      exists b, (b <= c)%nat /\ (m + b * (ncr + 3) = (ncr + 1) * (ncr + 3) + 1)%nat
  | DZero => span p (pset_of (sp P)) v0
  | DPiv c => P c <> None /\ span p (pset_of (sp P)) v0
  end.
Lemma drinv_mono k p ncr P Q v0 m s : le_dp P Q -> drinv k p ncr P v0 m s -> drinv k p ncr Q v0 m s.
Proof.
  intros HL. pose proof (le_dp_sp P Q HL) as HS. assert (HM : forall v, span p (pset_of (sp P)) v -> span p (pset_of (sp Q)) v) by (intros v; apply pset_of_mono; assumption).
  destruct s as [row|i dr np|dr c e| |c]; cbn [drinv].
  - auto.
  - intros (H1 & H2 & H3 & H4 & H5 & H6 & H7 & b & H8 & H9 & H10 & H11). do 6 (split; [assumption|]). split; [auto|]. exists b. split; [assumption|]. split; [assumption|].
    split; [|assumption]. destruct H10 as [H10|(H10 & H12 & H13)]; [left; assumption|right]. split; [assumption|]. split; [|assumption]. eapply le_dp_none; eassumption.
  - intros (H1 & H2 & H3 & H4 & H5 & H6 & H7 & H8 & H9). do 7 (split; [assumption|]). split; [auto|assumption].
  - auto.
  - intros (H1 & H2). split; [eapply le_dp_none; eassumption|auto].
Qed.
Lemma drinv_pos k p ncr P v0 m s : drinv k p ncr P v0 m s -> dfinished s = false -> (0 < m)%nat.
Proof.
  destruct s as [row|i dr np|dr c e| |c]; cbn [drinv dfinished]; intros H Hf; try discriminate.
  - destruct H as (_ & _ & _ & ->). unfold budget. lia.
  - destruct H as (_ & _ & _ & _ & _ & _ & _ & b & Hb & _ & _ & E). nia.
  - destruct H as (_ & _ & Hc & _ & _ & _ & _ & _ & _ & _ & b & Hb & E). nia.
Qed.
Lemma kb_start k p n : kern_ok k p -> p < kb k p (S n).
Proof. intros HK. assert (2 <= p) by apply HK. assert (p * p <= kb k p (S n)) by (destruct k; cbn [kb]; nia). nia. Qed.
Lemma drow_step_ok k p ncr P v0 m s : prime p -> kern_ok k p -> kroom k p (S ncr) -> dpok p ncr P -> drinv k p ncr P v0 m s ->
  exists P' s' m', drow_step k p ncr P s = Some (P', s') /\ drinv k p ncr P' v0 m' s' /\
  (dfinished s = false -> dfinished s' = true \/ (m' < m)%nat) /\ (dfinished s = true -> s' = s) /\
  le_dp P P' /\ dpok p ncr P' /\
  (forall c e, P' c = Some e -> P c = Some e \/ span p (fun v => pset_of (sp P) v \/ v = v0) (rv (drw c e))).
Proof.
  intros HP HK HR HPv HI. assert (Hp2 : 2 <= p) by apply HK. assert (LR : le_dp P P) by (intros c e H; assumption).
  destruct s as [row|i dr np|dr c e| |c]; cbn [drow_step].
  - destruct HI as (HL & HB & -> & ->). rewrite HL, Nat.eqb_refl. eexists P, _, _. split; [reflexivity|]. split.
    + cbn [drinv lead]. split; [lia|]. split; [assumption|]. split; [intros; lia|]. split; [intros j; specialize (HB j); pose proof (kb_start k p 0 HK); lia|].
      split; [intros; lia|]. split; [discriminate|]. split; [apply span_veq0; intros j; exists 0; unfold vzero; ring|].
      exists O. split; [lia|]. split; [discriminate|]. split; [left; lia|]. instantiate (1 := ((ncr + 1) * (ncr + 3) + ncr + 2)%nat). lia.
    + split; [intros _; right; unfold budget; lia|]. split; [discriminate|]. split; [assumption|]. split; [assumption|]. auto.
  - destruct HI as (Hi & HL & HB & HK2 & HZ & Hnp & HS & b & Hb & Hbc & Hbi & Hm). destruct (Nat.ltb_spec i ncr) as [Hic|Hic].
    + destruct (dcol_step_ok k p ncr (S i) P i dr HK) as (dr' & bb & -> & L' & B' & LT & Bi & Hbb & Hpn & SP & _ & _); auto.
      { eapply kroom_le; [|eassumption|eassumption]. lia. }
      cbn [obind fst snd]. exists P, (DRed (S i) dr' (np_next bb np i)), (m - 1)%nat. split; [reflexivity|]. split.
      * cbn [drinv]. split; [lia|]. split; [assumption|]. split.
        { intros j Hj. destruct (Nat.eq_dec j i) as [->|]; [assumption|]. rewrite LT by lia. apply HB. lia. }
        split; [assumption|]. split; [|split; [|split; [eapply span_eq; [apply (span_add _ _ _ _ HS SP)|]; intros j; exists 0; ring|]]].
        -- intros j Hj. destruct np as [c|]; cbn [np_next lead] in *.
           ++ destruct (Hnp c eq_refl) as (Hc & _). rewrite LT by lia. apply HZ. assumption.
           ++ destruct bb; cbn [lead] in Hj; [rewrite LT by lia; apply HZ; assumption|]. destruct (Nat.eq_dec j i) as [->|]; [assumption|]. rewrite LT by lia. apply HZ. lia.
        -- intros c. destruct np as [c0|]; cbn [np_next].
           ++ intros [= <-]. destruct (Hnp c0 eq_refl) as (Hc & Hx). split; [lia|]. rewrite LT by lia. assumption.
           ++ destruct bb; [|discriminate]. intros [= <-]. split; [lia|]. apply Hbb.
        -- exists b. split; [assumption|]. split; [|split; [left; destruct Hbi as [|(? & _)]; lia|nia]].
           intros c. destruct np as [c0|]; cbn [np_next]; [intros [= <-]; auto|]. destruct bb; [|discriminate]. intros [= <-].
           destruct Hbi as [Hbi|(_ & Hbi & _)]; [assumption|]. specialize (Hpn Hbi). discriminate.
      * split; [intros _; right; nia|]. split; [discriminate|]. split; [assumption|]. split; [assumption|]. auto.
    + replace i with ncr in * by lia. destruct np as [c|]; cbn [lead] in HZ.
      * destruct (Hnp c eq_refl) as (Hc & Hx). destruct (extract_ok k p ncr c dr HP HK HL Hc) as (dr' & e' & y & -> & L' & V1 & V2 & Le & Be & Hy & Hm1 & Ve); [intros j; apply HK2|assumption|].
        cbn [obind fst snd]. exists P, (DCas dr' c (1 :: e')), (m - 1)%nat. split; [reflexivity|]. split.
        -- assert (Q : forall j, eqp p (dv dr' j) (dv dr j)).
           { intros j. destruct (Nat.lt_ge_cases j c); [rewrite V1 by assumption; reflexivity|]. rewrite V2 by assumption. apply eqp_mod. lia. }
           assert (R : forall j, eqp p (rv (drw c (1 :: e')) j) (y * dv dr' j)).
           { intros j. rewrite drw_rv, Q. destruct (Nat.leb_spec c j) as [Hcj|Hcj]; [rewrite Ve; replace (c + (j - c))%nat with j by lia; reflexivity|].
             rewrite HZ by assumption. exists 0. ring. }
           cbn [drinv]. split; [eauto|]. split; [assumption|]. split; [assumption|]. split; [assumption|]. split; [assumption|]. split.
           { intros j. destruct (Nat.lt_ge_cases j c) as [Hj|Hj]; [rewrite V1 by assumption; apply HB; lia|]. rewrite V2 by assumption. pose proof (Z.mod_pos_bound (dv dr j) p ltac:(lia)). lia. }
           split; [intros j Hj; rewrite Q; apply HZ; assumption|]. split; [eapply span_eq; [exact HS|]; intros j; rewrite Q; reflexivity|].
           split; [|split; [exists y; assumption|]].
           ++ exists (dv dr c). intros j. rewrite R, Z.mul_assoc, (Z.mul_comm (dv dr c) y), Hm1. exists 0. ring.
           ++ exists b. split; [apply Hbc; reflexivity|]. destruct Hbi as [Hbi|(_ & _ & Hbi)]; [|discriminate]. nia.
        -- split; [intros _; right; nia|]. split; [discriminate|]. split; [assumption|]. split; [assumption|]. auto.
      * exists P, DZero, O. split; [reflexivity|]. split.
        -- cbn [drinv]. eapply span_eq; [exact HS|]. intros j. destruct (Nat.lt_ge_cases j ncr) as [Hj|Hj]; [rewrite HZ by assumption|rewrite dv_overflow by lia]; exists 0; ring.
        -- split; [intros _; left; reflexivity|]. split; [discriminate|]. split; [assumption|]. split; [assumption|]. auto.
  - destruct HI as ((e' & Ee) & He & Hc & Hle & HL & HB & HZ & HS & (a & Ha) & (y & Hy) & b & Hb & Hm). destruct (P c) as [q|] eqn:Ep.
    + exists P, (DRed c dr None), ((ncr + 1 - S c) * (ncr + 3) + (ncr - c) + 2)%nat. split; [reflexivity|]. split.
      * cbn [drinv lead]. split; [lia|]. split; [assumption|]. split; [intros; apply HB|]. split; [intros j; specialize (HB j); pose proof (kb_start k p c HK); lia|].
        split; [assumption|]. split; [discriminate|]. split; [assumption|]. exists (S c). split; [lia|]. split; [discriminate|]. split; [right; split; [reflexivity|split; [congruence|reflexivity]]|]. nia.
      * split; [intros _; right; nia|]. split; [discriminate|]. split; [assumption|]. split; [assumption|]. auto.
    + assert (HLe := dset_fresh P c e Ep). exists (dset P c e), (DPiv c), O. split; [reflexivity|]. split; [|split; [intros _; left; reflexivity|split; [discriminate|split; [assumption|split]]]].
      * cbn [drinv]. split; [unfold dset; rewrite Nat.eqb_refl; discriminate|].
        eapply span_eq; [apply (span_add p _ (fun j => v0 j - dv dr j) (fun j => a * rv (drw c e) j))|].
        -- eapply pset_of_mono; [|exact HS]. apply le_dp_sp. assumption.
        -- apply span_scale, span_in. exists c, (drw c e). split; [unfold sp, dset; rewrite Nat.eqb_refl; reflexivity|reflexivity].
        -- intros j. rewrite <- Ha. exists 0. ring.
      * rewrite Ee in *. cbn [length] in Hle. apply dpok_set; auto.
      * intros c' e2. unfold dset. destruct (Nat.eqb_spec c' c) as [->|]; [intros [= <-]; right|auto].
        eapply span_eq with (u := fun j => y * dv dr j); [|intros j; symmetry; apply Hy]. apply span_scale.
        eapply span_eq with (u := fun j => v0 j - (v0 j - dv dr j)); [|intros j; exists 0; ring].
        apply span_sub; [apply span_in; auto|]. eapply span_mono; [|exact HS]. intros u Hu. apply span_in. auto.
  - exists P, DZero, O. split; [reflexivity|]. split; [assumption|]. split; [discriminate|]. split; [auto|]. split; [assumption|]. split; [assumption|]. auto.
  - exists P, (DPiv c), O. split; [reflexivity|]. split; [assumption|]. split; [discriminate|]. split; [auto|]. split; [assumption|]. split; [assumption|]. auto.
Qed.
