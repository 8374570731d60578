(** Proofs about the import of the input system. *)
From Coq Require Import ZArith List Arith Bool Lia Permutation Znumtheory.
From Verif Require Import ModInvModel InputModel InputProofs ImportModel.
Import ListNotations.
Open Scope Z_scope.

(** ** Residues *)
Lemma int32_uint32 x : uint32 (int32 x) = uint32 x.
Proof.
  unfold uint32, int32. rewrite Zminus_mod, Zmod_mod, <- Zminus_mod. f_equal. lia.
Qed.
Lemma import_cf_value bits fc c : 0 < fc < 2 ^ 32 -> - 2 ^ 31 <= c < 2 ^ 31 ->
  import_cf bits fc c = Some (((if 0 <=? c then c else if - fc <=? c then c + fc else c + fc + 2 ^ 32) mod fc) mod 2 ^ bits).
Proof.
  intros Hf Hc. unfold import_cf. replace (fc =? 0) with false by (symmetry; apply Z.eqb_neq; lia). do 3 f_equal. rewrite int32_uint32. unfold uint32. rewrite Zmod_mod.
  rewrite Z.shiftr_div_pow2 by lia. destruct (Z.leb_spec 0 c) as [H|H].
  - rewrite (Z.div_small c) by lia. rewrite Zmod_0_l. rewrite Z.land_0_l, Z.add_0_r, Zmod_mod. apply Z.mod_small. lia.
  - replace (c / 2 ^ 31) with (-1) by (apply (Z.div_unique_pos c (2 ^ 31) (-1) (c + 2 ^ 31)); lia).
    change (-1 mod 2 ^ 32) with (Z.ones 32). rewrite Z.land_comm, Z.land_ones, (Z.mod_small fc) by lia. rewrite Zplus_mod_idemp_l.
    destruct (Z.leb_spec (- fc) c); [apply Z.mod_small; lia|]. symmetry. apply (Z.mod_unique_pos _ _ (-1)); lia.
Qed.
Lemma import_cf_ok bits fc c : 0 < fc < 2 ^ 32 -> fc <= 2 ^ bits -> - 2 ^ 31 <= c < 2 ^ 31 -> - fc <= c -> import_cf bits fc c = Some (c mod fc).
Proof.
  intros Hf Hb Hc Hl. rewrite import_cf_value by assumption. f_equal. assert (B : forall x, (x mod fc) mod 2 ^ bits = x mod fc) by (intros x; assert (Q := Z.mod_pos_bound x fc); apply Z.mod_small; lia).
  rewrite B. destruct (Z.leb_spec 0 c); [reflexivity|]. apply Z.leb_le in Hl. rewrite Hl. replace (c + fc) with (c + 1 * fc) by lia. apply Z_mod_plus_full.
Qed.
Lemma omap_map {A B} (f : A -> option B) (g : A -> B) l : (forall x, In x l -> f x = Some (g x)) -> omap f l = Some (map g l).
Proof. induction l as [|a l IH]; intros H; cbn; [reflexivity|]. rewrite (H a) by now left. cbn. rewrite IH by (intros; apply H; now right). reflexivity. Qed.

(** ** Permutation of the terms *)
Section Sort.
  Context {C H : Type}.
  Definition mover_ok (mv : @mover C) : Prop :=
    (forall tmp cf i, (i < length cf)%nat -> exists c cf', m_begin mv tmp cf i = Some (c, cf') /\ nth_error cf i = Some c /\ length cf' = length cf /\ forall x, x <> i -> nth_error cf' x = nth_error cf x) /\
    (forall cf k j, (k < length cf)%nat -> (j < length cf)%nat -> k <> j -> exists cf', m_move mv cf k j = Some cf' /\ nth_error cf' k = nth_error cf j /\ length cf' = length cf /\ forall x, x <> k -> x <> j -> nth_error cf' x = nth_error cf x) /\
    (forall tmp cf k, (k < length cf)%nat -> exists t cf', m_end mv tmp cf k = Some (t, cf') /\ nth_error cf' k = Some tmp /\ length cf' = length cf /\ forall x, x <> k -> nth_error cf' x = nth_error cf x).
  Lemma nth_some {A} (l : list A) i : (i < length l)%nat -> exists x, nth_error l i = Some x.
  Proof. intros Hi. destruct (nth_error l i) as [x|] eqn:E; [eauto|]. apply nth_error_None in E. lia. Qed.
  Lemma copying_ok : mover_ok copying.
  Proof.
    split; [|split]; cbn.
    - intros tmp cf i Hi. destruct (nth_some cf i Hi) as (c & E). rewrite E. exists c, cf. auto.
    - intros cf k j Hk Hj _. destruct (nth_some cf j Hj) as (c & E). rewrite E. cbn. destruct (aset_some cf k c Hk) as (l & E1 & L & N & O). exists l. rewrite N. auto.
    - intros tmp cf k Hk. destruct (aset_some cf k tmp Hk) as (l & E1 & L & N & O). rewrite E1. exists tmp, l. auto.
  Qed.
  Lemma swapping_ok : mover_ok swapping.
  Proof.
    split; [|split]; cbn.
    - intros tmp cf i Hi. destruct (nth_some cf i Hi) as (c & E). rewrite E. cbn. destruct (aset_some cf i tmp Hi) as (l & E1 & L & N & O). rewrite E1. exists c, l. auto.
    - intros cf k j Hk Hj _. destruct (aswap_ok cf k j Hk Hj) as (l & E & (L & T1 & T2 & T3)). exists l. auto.
    - intros tmp cf k Hk. destruct (nth_some cf k Hk) as (c & E). rewrite E. cbn. destruct (aset_some cf k tmp Hk) as (l & E1 & L & N & O). rewrite E1. exists c, l. auto.
  Qed.

  Variables (mv : @mover C) (n : nat) (cf0 : list C) (hm0 : list H) (p0 : list nat).
  Hypotheses (MO : mover_ok mv) (Lc0 : length cf0 = n) (Lh0 : length hm0 = n) (HP : Permutation p0 (seq 0 n)).
  Let P (k : nat) : nat := nth k p0 O.
  Lemma p0_len : length p0 = n.
  Proof. rewrite (Permutation_length HP). apply seq_length. Qed.
  Lemma P_at k : (k < n)%nat -> nth_error p0 k = Some (P k).
  Proof. intros Hk. unfold P. apply nth_error_nth'. rewrite p0_len. assumption. Qed.
  Lemma P_lt k : (k < n)%nat -> (P k < n)%nat.
  Proof.
    intros Hk. assert (I : In (P k) p0) by (apply nth_In; rewrite p0_len; assumption). apply (Permutation_in _ HP) in I. apply in_seq in I. lia.
  Qed.
  Lemma P_inj a b : (a < n)%nat -> (b < n)%nat -> P a = P b -> a = b.
  Proof.
    intros Ha Hb E. assert (ND : NoDup p0) by (apply (Permutation_NoDup (Permutation_sym HP)); apply seq_NoDup).
    apply (proj1 (NoDup_nth p0 O) ND); [rewrite p0_len; assumption|rewrite p0_len; assumption|exact E].
  Qed.
  (** State between two cycles. *)
  Definition Inv (cf : list C) (hm : list H) (phm : list nat) : Prop :=
    length cf = n /\ length hm = n /\ length phm = n /\
    (forall k, (k < n)%nat -> nth_error phm k = Some k /\ nth_error cf k = nth_error cf0 (P k) /\ nth_error hm k = nth_error hm0 (P k) \/
                              nth_error phm k = Some (P k) /\ P k <> k /\ nth_error phm (P k) <> Some (P k) /\ nth_error cf k = nth_error cf0 k /\ nth_error hm k = nth_error hm0 k).
  Lemma cycle_ok (cfs : list C) (hms : list H) (phms : list nat) i : Inv cfs hms phms -> (i < n)%nat -> nth_error phms i <> Some i ->
    forall fuel k vis tmp tmphm cf hm phm,
    (n <= fuel + length vis)%nat -> NoDup (k :: vis) -> (forall x, In x (k :: vis) -> (x < n)%nat /\ nth_error phms x <> Some x) ->
    (forall x, In x (k :: vis) -> x <> i -> exists y, In y vis /\ P y = x) -> In i (k :: vis) ->
    Some tmp = nth_error cf0 i -> Some tmphm = nth_error hm0 i -> length cf = n -> length hm = n -> length phm = n ->
    (forall x, In x vis -> nth_error phm x = Some x /\ nth_error cf x = nth_error cf0 (P x) /\ nth_error hm x = nth_error hm0 (P x)) ->
    nth_error phm k = Some (P k) ->
    (forall x, ~ In x (k :: vis) -> nth_error phm x = nth_error phms x /\ nth_error cf x = nth_error cfs x /\ nth_error hm x = nth_error hms x) ->
    exists t cf' hm' phm', cycle mv fuel i k tmp tmphm cf hm phm = Some (t, cf', hm', phm') /\ Inv cf' hm' phm' /\ nth_error phm' i = Some i /\
      forall x, (x < n)%nat -> nth_error phms x = Some x -> nth_error phm' x = Some x.
  Proof.
    destruct MO as (_ & MM & ME). intros (I1 & I2 & I3 & I4) Hi Hni. induction fuel as [|fuel IH]; intros k vis tmp tmphm cf hm phm Hf ND HV HPred Hii Ht Hth L1 L2 L3 Hvis Hk Hoth.
    - exfalso. assert (incl (k :: vis) (seq 0 n)) as Hin by (intros x Hx; apply in_seq; destruct (HV x Hx); lia). apply NoDup_incl_length in Hin; [|assumption]. rewrite seq_length in Hin. cbn in Hin. lia.
    - destruct (HV k (or_introl eq_refl)) as [Kn Kd]. cbn [cycle]. rewrite Hk. cbn [obind]. destruct (Nat.eqb_spec i (P k)) as [E|E].
      + destruct (ME tmp cf k ltac:(lia)) as (t & cf' & E1 & N1 & Q1 & O1). rewrite E1. cbn [obind fst snd].
        destruct (aset_some hm k tmphm ltac:(lia)) as (hm' & E2 & Q2 & N2 & O2). rewrite E2. cbn [obind]. destruct (aset_some phm k k ltac:(lia)) as (phm' & E3 & Q3 & N3 & O3). rewrite E3. cbn [obind].
        exists t, cf', hm', phm'. split; [reflexivity|].
        assert (DD : forall x, In x (k :: vis) -> nth_error phm' x = Some x /\ nth_error cf' x = nth_error cf0 (P x) /\ nth_error hm' x = nth_error hm0 (P x)).
        { intros x [<-|Hx]; [rewrite N1, N2, N3, <- E; auto|]. assert (x <> k) by (intros ->; inversion ND; contradiction). rewrite O1, O2, O3 by assumption. now apply Hvis. }
        assert (OO : forall x, ~ In x (k :: vis) -> nth_error phm' x = nth_error phms x /\ nth_error cf' x = nth_error cfs x /\ nth_error hm' x = nth_error hms x).
        { intros x Hx. assert (x <> k) by (intros ->; apply Hx; now left). rewrite O1, O2, O3 by assumption. now apply Hoth. }
        split; [|split; [exact (proj1 (DD i Hii))|]].
        * repeat split; try lia. intros x Hx. destruct (in_dec Nat.eq_dec x (k :: vis)) as [D|D]; [left; now apply DD|]. destruct (OO x D) as (A1 & A2 & A3). rewrite A1, A2, A3.
          destruct (I4 x Hx) as [B|(B1 & B2 & B3 & B4 & B5)]; [left; exact B|right]. split; [assumption|]. split; [assumption|]. split; [|auto].
          assert (NP : ~ In (P x) (k :: vis)).
          { intros Q. destruct (Nat.eq_dec (P x) i) as [Z|Z].
            - apply D. left. apply P_inj; [assumption|assumption|congruence].
            - destruct (HPred (P x) Q Z) as (y & Hy & Ey). apply D. right. replace x with y; [assumption|]. apply P_inj; [apply (HV y); now right|assumption|assumption]. }
          rewrite (proj1 (OO _ NP)). assumption.
        * intros x Hx Hd. destruct (in_dec Nat.eq_dec x (k :: vis)) as [D|D]; [now apply DD|]. now rewrite (proj1 (OO x D)).
      + set (j := P k) in *. assert (Hj : (j < n)%nat) by (apply P_lt; assumption).
        assert (NJ : ~ In j (k :: vis)).
        { intros Q. destruct (HPred j Q ltac:(congruence)) as (y & Hy & Ey). assert (y = k) by (apply P_inj; [apply (HV y); now right|assumption|exact Ey]). subst y. inversion ND; contradiction. }
        assert (KJ : k <> j) by (intros Q; apply NJ; now left).
        destruct (MM cf k j ltac:(lia) ltac:(lia) KJ) as (cf' & E1 & N1 & Q1 & O1). rewrite E1. cbn [obind].
        destruct (nth_some hm j ltac:(lia)) as (h & Eh). rewrite Eh. cbn [obind].
        destruct (aset_some hm k h ltac:(lia)) as (hm' & E2 & Q2 & N2 & O2). rewrite E2. cbn [obind]. destruct (aset_some phm k k ltac:(lia)) as (phm' & E3 & Q3 & N3 & O3). rewrite E3. cbn [obind].
        destruct (Hoth j NJ) as (J1 & J2 & J3).
        assert (JD : nth_error phms j = Some (P j) /\ nth_error phms j <> Some j /\ nth_error cfs j = nth_error cf0 j /\ nth_error hms j = nth_error hm0 j).
        { destruct (I4 k Kn) as [(B1 & _)|(B1 & B2 & B3 & B4 & B5)]; [contradiction|]. fold j in B3. destruct (I4 j Hj) as [(D1 & _)|(D1 & D2 & D3 & D4 & D5)]; [contradiction|]. auto. }
        destruct JD as (JD1 & JD2 & JD3 & JD4).
        apply (IH j (k :: vis)); try assumption; try lia.
        * cbn [length]. lia.
        * constructor; [assumption|exact ND].
        * intros x [<-|Hx]; [auto|apply HV; exact Hx].
        * intros x [<-|Hx] Hxi; [exists k; split; [now left|reflexivity]|]. destruct (HPred x Hx Hxi) as (y & Hy & Ey). exists y. split; [now right|assumption].
        * right. exact Hii.
        * intros x [<-|Hx].
          -- fold j. rewrite N3, N1, N2, <- Eh, J2, J3, JD3, JD4. auto.
          -- assert (x <> k) by (intros ->; inversion ND; contradiction). assert (x <> j) by (intros ->; apply NJ; now right). rewrite O1, O2, O3 by assumption. now apply Hvis.
        * rewrite O3 by congruence. rewrite J1. exact JD1.
        * intros x Hx. assert (x <> j) by (intros ->; apply Hx; now left). assert (x <> k) by (intros ->; apply Hx; right; now left). rewrite O1, O2, O3 by assumption. apply Hoth. intros Q. apply Hx. now right.
  Qed.
  Lemma cycles_ok m : forall i tmp cf hm phm, (i + m = n)%nat -> Inv cf hm phm -> (forall x, (x < i)%nat -> nth_error phm x = Some x) ->
    exists cf' hm', cycles mv (seq i m) tmp cf hm phm = Some (cf', hm') /\ length cf' = n /\ length hm' = n /\ forall k, (k < n)%nat -> nth_error cf' k = nth_error cf0 (P k) /\ nth_error hm' k = nth_error hm0 (P k).
  Proof.
    assert (MO' := MO). destruct MO' as (MB & _). induction m as [|m IH]; intros i tmp cf hm phm Him HI Hd; cbn [seq cycles].
    - exists cf, hm. destruct HI as (I1 & I2 & I3 & I4). repeat split; try assumption; destruct (I4 k H0) as [(_ & B & D)|(B1 & B2 & _)]; try assumption; specialize (Hd k ltac:(lia)); congruence.
    - assert (HI' := HI). destruct HI' as (I1 & I2 & I3 & I4). destruct (nth_some phm i ltac:(lia)) as (q & Eq). rewrite Eq. cbn [obind]. destruct (Nat.eqb_spec i q) as [<-|Nq].
      + apply IH; [lia|assumption|]. intros x Hx. destruct (Nat.eq_dec x i) as [->|]; [assumption|]. apply Hd. lia.
      + destruct (MB tmp cf i ltac:(lia)) as (c & cf1 & E1 & N1 & L1 & O1). rewrite E1. cbn [obind fst snd]. destruct (nth_some hm i ltac:(lia)) as (h & Eh). rewrite Eh. cbn [obind].
        destruct (I4 i ltac:(lia)) as [(B & _)|(B1 & B2 & B3 & B4 & B5)]; [congruence|]. assert (Hni : nth_error phm i <> Some i) by congruence.
        destruct (cycle_ok cf hm phm i HI ltac:(lia) Hni (length hm) i [] c h cf1 hm phm) as (t & cf' & hm' & phm' & E & II & Di & Dk); try assumption; try lia.
        * constructor; [intros []|constructor].
        * intros x [<-|[]]. split; [lia|assumption].
        * intros x [<-|[]] Q. contradiction.
        * now left.
        * congruence.
        * congruence.
        * intros x [].
        * intros x Hx. repeat split. apply O1. intros ->. apply Hx. now left.
        * rewrite E. cbn [obind]. apply IH; [lia|assumption|]. intros x Hx. destruct (Nat.eq_dec x i) as [->|]; [assumption|]. apply Dk; [lia|]. apply Hd. lia.
  Qed.
  Lemma Inv_start : Inv cf0 hm0 p0.
  Proof.
    repeat split; try assumption; [apply p0_len|]. intros k Hk. rewrite (P_at k Hk). destruct (Nat.eq_dec (P k) k) as [E|E]; [left; rewrite E; auto|right].
    split; [reflexivity|]. split; [assumption|]. split; [|auto]. rewrite (P_at (P k) (P_lt k Hk)). intros Q. injection Q as Q. apply E. apply P_inj; [apply P_lt; assumption|assumption|exact Q].
  Qed.
  Lemma sort_terms_ok tmp : exists cf' hm', sort_terms mv tmp cf0 hm0 p0 = Some (cf', hm') /\ length cf' = n /\ length hm' = n /\
    forall k, (k < n)%nat -> nth_error cf' k = nth_error cf0 (nth k p0 O) /\ nth_error hm' k = nth_error hm0 (nth k p0 O).
  Proof. unfold sort_terms. rewrite Lh0. apply (cycles_ok n 0 tmp cf0 hm0 p0); [reflexivity|exact Inv_start|intros; lia]. Qed.
End Sort.

(** ** Content *)
Definition gcds (l : list Z) : Z := fold_right Z.gcd 0 l.
Lemma gcd_loop_ok l : forall c, match gcd_loop l c with None => Z.gcd c (gcds l) = 1 | Some g => Z.abs g = Z.gcd c (gcds l) end.
Proof.
  induction l as [|a l IH]; intros c; cbn [gcd_loop gcds fold_right]; [symmetry; apply Z.gcd_0_r|]. fold (gcds l). destruct (Z.eqb_spec (Z.gcd c a) 1) as [E|E].
  - rewrite Z.gcd_assoc, E. apply Z.gcd_1_l.
  - rewrite Z.gcd_assoc. apply IH.
Qed.
Lemma gcds_divide l : forall x, In x l -> (gcds l | x).
Proof. induction l as [|a l IH]; intros x HH; [destruct HH|]; destruct HH as [->|HH]; cbn; [apply Z.gcd_divide_l|]. etransitivity; [apply Z.gcd_divide_r|]. now apply IH. Qed.
Lemma gcds_scale k l : gcds (map (Z.mul k) l) = Z.abs k * gcds l.
Proof. induction l as [|a l IH]; cbn; [lia|]. fold (gcds l). fold (gcds (map (Z.mul k) l)). rewrite IH. rewrite <- Z.gcd_mul_mono_l. destruct (Z.abs_eq_or_opp k) as [E|E]; rewrite E; [reflexivity|]. rewrite Z.mul_opp_l, Z.gcd_opp_r. reflexivity. Qed.
Lemma gcds_opp l : gcds (map Z.opp l) = gcds l.
Proof. induction l as [|a l IH]; cbn; [reflexivity|]. fold (gcds l). fold (gcds (map Z.opp l)). now rewrite IH, Z.gcd_opp_l. Qed.
Lemma gcds_nonneg l : 0 <= gcds l.
Proof. destruct l; cbn; [lia|apply Z.gcd_nonneg]. Qed.
Lemma upd_ok f l j r : upd f (l ++ j :: r) (length l) = Some (l ++ f j :: r).
Proof.
  unfold upd. rewrite nth_error_app2, Nat.sub_diag by lia. cbn [nth_error obind]. replace (length l) with (length l + 0)%nat by lia. rewrite aset_app_r. reflexivity.
Qed.
Lemma pre_loop_ok f a : forall l r, pre_loop f (length a) (length l) (l ++ a ++ r) = Some (l ++ map f a ++ r).
Proof.
  induction a as [|x a IH]; intros l r; cbn [length pre_loop map app]; [reflexivity|]. rewrite upd_ok. cbn [obind]. replace (S (length l)) with (length (l ++ [f x])) by (rewrite app_length; cbn; lia).
  replace (l ++ f x :: a ++ r) with ((l ++ [f x]) ++ a ++ r) by (rewrite <- app_assoc; reflexivity). rewrite IH, <- app_assoc. reflexivity.
Qed.
Lemma unrolled_ok f m : forall fuel l a, length a = (4 * m)%nat -> (m <= fuel)%nat -> unrolled f fuel (length l) (length l + length a) (l ++ a) = Some (l ++ map f a).
Proof.
  induction m as [|m IH]; intros fuel l a La Hf.
  - destruct a; [|discriminate]. destruct fuel; cbn [unrolled]; replace (length l <? length l + length (@nil Z))%nat with false by (symmetry; apply Nat.ltb_ge; cbn; lia); reflexivity.
  - destruct a as [|a0 [|a1 [|a2 [|a3 a]]]]; cbn in La; try lia. destruct fuel as [|fuel]; [lia|]. cbn [unrolled]. replace (length l <? _)%nat with true by (symmetry; apply Nat.ltb_lt; cbn; lia).
    rewrite upd_ok. cbn [obind]. assert (Q : forall x y, l ++ x :: y = (l ++ [x]) ++ y) by (intros; rewrite <- app_assoc; reflexivity).
    pose (l1 := l ++ [f a0]). pose (l2 := l1 ++ [f a1]). pose (l3 := l2 ++ [f a2]). pose (l4 := l3 ++ [f a3]).
    assert (N1 : (length l + 1)%nat = length l1) by (unfold l1; rewrite app_length; reflexivity). assert (N2 : (length l + 2)%nat = length l2) by (unfold l2; rewrite app_length; cbn; lia).
    assert (N3 : (length l + 3)%nat = length l3) by (unfold l3; rewrite app_length; cbn; lia). assert (N4 : (length l + 4)%nat = length l4) by (unfold l4; rewrite app_length; cbn; lia).
    replace (l ++ f a0 :: a1 :: a2 :: a3 :: a) with (l1 ++ a1 :: a2 :: a3 :: a) by (unfold l1; now rewrite <- app_assoc). rewrite N1, upd_ok. cbn [obind].
    replace (l1 ++ f a1 :: a2 :: a3 :: a) with (l2 ++ a2 :: a3 :: a) by (unfold l2; now rewrite <- app_assoc). rewrite N2, upd_ok. cbn [obind].
    replace (l2 ++ f a2 :: a3 :: a) with (l3 ++ a3 :: a) by (unfold l3; now rewrite <- app_assoc). rewrite N3, upd_ok. cbn [obind].
    replace (l3 ++ f a3 :: a) with (l4 ++ a) by (unfold l4; now rewrite <- app_assoc). rewrite N4. replace (length l + length (a0 :: a1 :: a2 :: a3 :: a))%nat with (length l4 + length a)%nat by (cbn [length]; lia).
    rewrite IH by lia. f_equal. unfold l4, l3, l2, l1. rewrite <- !app_assoc. reflexivity.
Qed.
Lemma all_row_ok f row : all_row f row = Some (map f row).
Proof.
  unfold all_row. set (os := (length row mod 4)%nat). assert (D := Nat.div_mod (length row) 4 ltac:(lia)). fold os in D. assert (Ho : (os <= length row)%nat) by lia.
  rewrite <- (firstn_skipn os row) at 1. assert (L1 : length (firstn os row) = os) by (rewrite firstn_length; lia).
  rewrite <- L1 at 1. change (firstn os row ++ skipn os row) with ([] ++ firstn os row ++ skipn os row). change 0%nat with (length (@nil Z)). rewrite pre_loop_ok. cbn [app obind].
  assert (L2 : length (map f (firstn os row)) = os) by (rewrite map_length; exact L1).
  assert (L3 : length (skipn os row) = (4 * (length row / 4))%nat) by (rewrite skipn_length; lia).
  transitivity (unrolled f (length row) (length (map f (firstn os row))) (length (map f (firstn os row)) + length (skipn os row)) (map f (firstn os row) ++ skipn os row)).
  - f_equal; lia.
  - rewrite (unrolled_ok f (length row / 4)) by lia. rewrite <- map_app, firstn_skipn. reflexivity.
Qed.
Lemma map_scale_div c l : c <> 0 -> (forall x, In x l -> (c | x)) -> map (Z.mul c) (map (fun x => x / c) l) = l.
Proof.
  intros Hc HD. rewrite map_map. rewrite <- (map_id l) at 2. apply map_ext_in. intros x Hx. destruct (HD x Hx) as (q & ->). rewrite Z.div_mul by assumption. lia.
Qed.
Lemma remove_content_row_ok c0 l : c0 <> 0 -> exists k r, remove_content_row (c0 :: l) = Some r /\ k <> 0 /\ map (Z.mul k) r = c0 :: l /\ gcds r = 1.
Proof.
  intros H0. unfold remove_content_row. cbn [nth_error obind tl]. apply Z.eqb_neq in H0 as E0. rewrite E0. assert (Q := gcd_loop_ok l c0). assert (G : gcds (c0 :: l) = Z.gcd c0 (gcds l)) by reflexivity.
  destruct (gcd_loop l c0) as [g|] eqn:E.
  - rewrite all_row_ok. assert (Hg : g <> 0) by (intros ->; cbn in Q; symmetry in Q; apply Z.gcd_eq_0_l in Q; contradiction).
    assert (DV : forall x, In x (c0 :: l) -> (g | x)). { intros x Hx. apply Z.divide_abs_l. rewrite Q, <- G. now apply gcds_divide. }
    exists g. eexists. split; [reflexivity|]. assert (M := map_scale_div g (c0 :: l) Hg DV). split; [assumption|]. split; [exact M|].
    assert (S1 := gcds_scale g (map (fun x => x / g) (c0 :: l))). rewrite M, G, <- Q in S1. assert (0 < Z.abs g) by lia. nia.
  - exists 1, (c0 :: l). split; [reflexivity|]. split; [lia|]. split; [|rewrite G; exact Q]. rewrite <- (map_id (c0 :: l)) at 2. apply map_ext. intros x. lia.
Qed.
Lemma positive_row_ok c0 l : c0 <> 0 -> exists s d r, positive_row (c0 :: l) = Some (d :: r) /\ 0 < d /\ (s = 1 \/ s = -1) /\ map (Z.mul s) (d :: r) = c0 :: l /\ gcds (d :: r) = gcds (c0 :: l).
Proof.
  intros H0. unfold positive_row. cbn [nth_error obind]. destruct (Z.ltb_spec c0 0) as [H|H].
  - rewrite all_row_ok. exists (-1), (- c0), (map Z.opp l). split; [reflexivity|]. split; [lia|]. split; [now right|]. split; [|apply (gcds_opp (c0 :: l))].
    cbn [map]. f_equal; [lia|]. rewrite map_map. rewrite <- (map_id l) at 2. apply map_ext. intros x. lia.
  - exists 1, c0, l. split; [reflexivity|]. split; [lia|]. split; [now left|]. split; [|reflexivity]. rewrite <- (map_id (c0 :: l)) at 2. apply map_ext. intros x. lia.
Qed.
Lemma omap_forall2 {A B} (f : A -> option B) (R : A -> B -> Prop) l : (forall x, In x l -> exists y, f x = Some y /\ R x y) -> exists r, omap f l = Some r /\ Forall2 R l r.
Proof.
  induction l as [|a l IH]; intros HH; cbn; [eexists; split; [reflexivity|constructor]|]. destruct (HH a (or_introl eq_refl)) as (y & Ey & Ry). rewrite Ey. cbn. destruct IH as (r & Er & Fr); [intros; apply HH; now right|].
  rewrite Er. cbn. eexists. split; [reflexivity|]. now constructor.
Qed.

(** ** The flat arrays of a system *)
Lemma slice_mid {A} (pre l post : list A) : slice (pre ++ l ++ post) (length pre) (length l) = Some l.
Proof.
  unfold slice. replace (length pre + length l <=? length (pre ++ l ++ post))%nat with true by (symmetry; apply Nat.leb_le; rewrite !app_length; lia).
  f_equal. rewrite skipn_app, skipn_all, Nat.sub_diag. cbn [skipn app]. rewrite firstn_app, Nat.sub_diag, firstn_all. cbn [firstn]. apply app_nil_r.
Qed.
Section System.
  Context {M C : Type}.
  Definition lens_of (gens : list (list (C * M))) : list nat := map (@length _) gens.
  Definition mons_of (gens : list (list (C * M))) : list M := concat (map (map snd) gens).
  Definition cfs_of (gens : list (list (C * M))) : list C := concat (map (map fst) gens).
  Lemma mons_app a b : mons_of (a ++ b) = mons_of a ++ mons_of b.
  Proof. unfold mons_of. now rewrite map_app, concat_app. Qed.
  Lemma cfs_app a b : cfs_of (a ++ b) = cfs_of a ++ cfs_of b.
  Proof. unfold cfs_of. now rewrite map_app, concat_app. Qed.
  Lemma mons_len a : length (mons_of a) = length (cfs_of a).
  Proof. induction a as [|g a IH]; [reflexivity|]. unfold mons_of, cfs_of in *. cbn [map concat]. rewrite !app_length, !map_length, IH. reflexivity. Qed.
  Lemma mons_slice a g b : slice (mons_of (a ++ g :: b)) (length (cfs_of a)) (length g) = Some (map snd g).
  Proof. rewrite mons_app. change (mons_of (g :: b)) with (map snd g ++ mons_of b). rewrite <- mons_len, <- (map_length snd g). apply slice_mid. Qed.
  Lemma cfs_slice a g b : slice (cfs_of (a ++ g :: b)) (length (cfs_of a)) (length g) = Some (map fst g).
  Proof. rewrite cfs_app. change (cfs_of (g :: b)) with (map fst g ++ cfs_of b). rewrite <- (map_length fst g). apply slice_mid. Qed.
  Lemma cfs_snoc a g : (length (cfs_of a) + length g)%nat = length (cfs_of (a ++ [g])).
  Proof. rewrite cfs_app, app_length. unfold cfs_of at 3. cbn [map concat]. rewrite app_nil_r, map_length. reflexivity. Qed.
End System.
Lemma flags_ff_ok {M} (gens : list (list (Z * M))) : forall pre, flags_ff (lens_of gens) (length (cfs_of pre)) (cfs_of (pre ++ gens)) = Some (map (fun g => existsb (Z.eqb 0) (map fst g)) gens).
Proof.
  induction gens as [|g gens IH]; intros pre; cbn [lens_of map flags_ff]; [reflexivity|]. rewrite cfs_slice. cbn [obind]. rewrite cfs_snoc. replace (pre ++ g :: gens) with ((pre ++ [g]) ++ gens) by (rewrite <- app_assoc; reflexivity).
  fold (lens_of gens). rewrite IH. reflexivity.
Qed.
Lemma flags_qq_ok {M} (gens : list (list ((Z * Z) * M))) : forall pre, flags_qq (lens_of gens) (length (cfs_of pre)) (cfs_of (pre ++ gens)) = Some (map (fun g => existsb (fun x => Z.eqb 0 (fst x) || Z.eqb 0 (snd x))%bool (map fst g)) gens).
Proof.
  induction gens as [|g gens IH]; intros pre; cbn [lens_of map flags_qq]; [reflexivity|]. rewrite cfs_slice. cbn [obind]. rewrite cfs_snoc. replace (pre ++ g :: gens) with ((pre ++ [g]) ++ gens) by (rewrite <- app_assoc; reflexivity).
  fold (lens_of gens). rewrite IH. reflexivity.
Qed.
Section Rows.
  Context {M C : Type}.
  Variables (sorter : list M -> list nat) (fc : Z) (mk : list C -> coeffs) (bad : list (C * M) -> bool) (rowf : list C -> list M -> option (list Z * list M)) (R : list (C * M) -> list Z * list M -> Prop).
  Hypothesis Hmk : forall l off n hm, match mk l with
    | CF c => let? r := slice c off n in import_row_ff sorter (ff_bits fc) fc r hm
    | CQ c => let? r := slice c off n in import_row_qq sorter r hm end = let? r := slice l off n in rowf r hm.
  Lemma import_rows_ok cnt : forall (pre gens : list (list (C * M))), (cnt <= length gens)%nat ->
    (forall g, In g (firstn cnt gens) -> bad g = false -> exists r, rowf (map fst g) (map snd g) = Some r /\ R g r) ->
    exists rows, import_rows sorter cnt (length pre) (length (cfs_of pre)) fc (lens_of (pre ++ gens)) (mons_of (pre ++ gens)) (mk (cfs_of (pre ++ gens))) (map bad (pre ++ gens)) = Some rows /\
      Forall2 R (filter (fun g => negb (bad g)) (firstn cnt gens)) rows.
  Proof.
    induction cnt as [|cnt IH]; intros pre gens Hl HR; cbn [import_rows firstn filter]; [eexists; split; [reflexivity|constructor]|].
    destruct gens as [|g gens]; [cbn in Hl; lia|]. assert (EL : nth_error (lens_of (pre ++ g :: gens)) (length pre) = Some (length g)).
    { unfold lens_of. rewrite map_app, nth_error_app2; rewrite map_length; [|lia]. now rewrite Nat.sub_diag. }
    assert (EB : nth_error (map bad (pre ++ g :: gens)) (length pre) = Some (bad g)).
    { rewrite map_app, nth_error_app2; rewrite map_length; [|lia]. now rewrite Nat.sub_diag. }
    rewrite EL. cbn [obind]. rewrite EB. cbn [obind]. rewrite cfs_snoc.
    destruct (IH (pre ++ [g]) gens) as (rows & E & F); [cbn in Hl; lia|intros g' Hg'; apply HR; cbn; now right|].
    assert (EQ : (pre ++ [g]) ++ gens = pre ++ g :: gens) by (rewrite <- app_assoc; reflexivity). rewrite EQ, app_length in E. cbn [length] in E. rewrite Nat.add_1_r in E. cbn [firstn filter].
    destruct (bad g) eqn:B; cbn [negb].
    - exists rows. auto.
    - rewrite mons_slice. cbn [obind]. rewrite Hmk, cfs_slice. cbn [obind]. destruct (HR g) as (r & Er & Rr); [cbn; now left|assumption|]. rewrite Er. cbn [obind]. rewrite E. cbn [obind]. eexists. split; [reflexivity|]. now constructor.
  Qed.
End Rows.
(** The permuted row. *)
Definition follows {M} (sorter : list M -> list nat) (l : list Z) (hm : list M) (row : list Z * list M) : Prop :=
  length (fst row) = length hm /\ length (snd row) = length hm /\
  forall k, (k < length hm)%nat -> nth_error (fst row) k = nth_error l (nth k (sorter hm) O) /\ nth_error (snd row) k = nth_error hm (nth k (sorter hm) O).
Lemma nth_error_seq n k : (k < n)%nat -> nth_error (seq 0 n) k = Some k.
Proof. intros H. rewrite (nth_error_nth' _ O) by (rewrite seq_length; assumption). rewrite seq_nth by assumption. reflexivity. Qed.
Lemma row_map {A} (l r : list A) p : length l = length r -> Permutation p (seq 0 (length l)) -> (forall k, (k < length l)%nat -> nth_error r k = nth_error l (nth k p O)) -> forall d, r = map (fun j => nth j l d) p.
Proof.
  intros HL HP H d. assert (LP : length p = length l) by (rewrite (Permutation_length HP); apply seq_length). apply nth_error_ext. intros k. destruct (Nat.lt_ge_cases k (length l)) as [Hk|Hk].
  - rewrite H by assumption. assert (B : (nth k p O < length l)%nat). { assert (I : In (nth k p O) p) by (apply nth_In; lia). apply (Permutation_in _ HP) in I. apply in_seq in I. lia. }
    rewrite nth_error_map, (nth_error_nth' p O) by lia. cbn. now apply nth_error_nth'.
  - rewrite (proj2 (nth_error_None r k)) by lia. symmetry. apply nth_error_None. rewrite map_length. lia.
Qed.
Lemma map_nth_seq {A} (l : list A) d : map (fun j => nth j l d) (seq 0 (length l)) = l.
Proof.
  apply nth_error_ext. intros k. destruct (Nat.lt_ge_cases k (length l)) as [Hk|Hk].
  - rewrite nth_error_map, nth_error_seq by assumption. cbn. symmetry. now apply nth_error_nth'.
  - rewrite (proj2 (nth_error_None l k)) by lia. apply nth_error_None. rewrite map_length, seq_length. lia.
Qed.
Lemma combine_nth_error {A B} (l : list A) (m : list B) k : nth_error (combine l m) k = match nth_error l k, nth_error m k with Some a, Some b => Some (a, b) | _, _ => None end.
Proof. revert m k. induction l as [|a l IH]; intros m k; [destruct k; reflexivity|]. destruct m as [|b m]; [destruct k; cbn; [reflexivity|destruct (nth_error l k); reflexivity]|]. destruct k; cbn; [reflexivity|apply IH]. Qed.
Lemma combine_len {A B} (l : list A) (m : list B) : length l = length m -> length (combine l m) = length l.
Proof. intros H. rewrite combine_length. lia. Qed.
Lemma follows_perm {M} (sorter : list M -> list nat) l hm row : length l = length hm -> Permutation (sorter hm) (seq 0 (length hm)) -> follows sorter l hm row ->
  Permutation (combine (fst row) (snd row)) (combine l hm) /\ (forall d, snd row = map (fun j => nth j hm d) (sorter hm)).
Proof.
  intros HL HP (L1 & L2 & F). split.
  - destruct hm as [|m0 hm'] eqn:EH.
    { destruct l; [|discriminate]. destruct (fst row); [|discriminate]. constructor. }
    rewrite <- EH in *. set (d := (0, m0)). assert (LC : length (combine l hm) = length hm) by (rewrite combine_len; congruence).
    assert (E : combine (fst row) (snd row) = map (fun j => nth j (combine l hm) d) (sorter hm)).
    { apply row_map; [rewrite LC, combine_len; congruence|rewrite LC; exact HP|]. intros k Hk. rewrite LC in Hk. destruct (F k Hk) as (A & B). rewrite !combine_nth_error, A, B. reflexivity. }
    rewrite E. apply (Permutation_trans (l' := map (fun j => nth j (combine l hm) d) (seq 0 (length (combine l hm))))); [|rewrite map_nth_seq; apply Permutation_refl]. apply Permutation_map. rewrite LC. exact HP.
  - intros d. apply row_map; [congruence|exact HP|]. intros k Hk. apply F. exact Hk.
Qed.
Lemma import_row_ff_ok {M} (sorter : list M -> list nat) bits fc cf hm : 0 < fc < 2 ^ 32 -> fc <= 2 ^ bits -> Forall (fun c => - 2 ^ 31 <= c < 2 ^ 31 /\ - fc <= c) cf ->
  length cf = length hm -> Permutation (sorter hm) (seq 0 (length hm)) -> exists row, import_row_ff sorter bits fc cf hm = Some row /\ follows sorter (map (fun c => c mod fc) cf) hm row.
Proof.
  intros Hf Hb HC HL HP. unfold import_row_ff. rewrite (omap_map _ (fun c => c mod fc)).
  - cbn [obind]. destruct (sort_terms_ok copying (length hm) (map (fun c => c mod fc) cf) hm (sorter hm) copying_ok ltac:(rewrite map_length; congruence) eq_refl HP 0) as (c' & h' & E & L1 & L2 & F).
    exists (c', h'). split; [exact E|]. unfold follows. cbn [fst snd]. auto.
  - intros x Hx. rewrite Forall_forall in HC. destruct (HC x Hx). now apply import_cf_ok.
Qed.
Definition dens (cf : list (Z * Z)) : Z := fold_right (fun x p => snd x * p) 1 cf.
Lemma dens_fold cf : forall a, fold_left (fun p x => p * snd x) cf a = a * dens cf.
Proof. induction cf as [|x cf IH]; intros a; cbn [fold_left dens fold_right]; [lia|]. rewrite IH. fold (dens cf). ring. Qed.
Lemma dens_divide cf : forall x, In x cf -> (snd x | dens cf).
Proof. induction cf as [|y cf IH]; intros x Hx; [destruct Hx|]. cbn. destruct Hx as [->|Hx]; [apply Z.divide_factor_l|]. apply Z.divide_mul_r. now apply IH. Qed.
Lemma dens_nonzero cf : Forall (fun x => snd x <> 0) cf -> dens cf <> 0.
Proof. induction 1; cbn; [lia|]. fold (dens l). nia. Qed.
Lemma import_row_qq_ok {M} (sorter : list M -> list nat) cf hm : Forall (fun x => snd x <> 0) cf ->
  length cf = length hm -> Permutation (sorter hm) (seq 0 (length hm)) -> exists row, import_row_qq sorter cf hm = Some row /\ follows sorter (map (fun x => dens cf / snd x * fst x) cf) hm row.
Proof.
  intros HC HL HP. unfold import_row_qq, import_qq. rewrite (omap_map _ (fun x => dens cf / snd x * fst x)).
  - cbn [obind]. destruct (sort_terms_ok swapping (length hm) (map (fun x => dens cf / snd x * fst x) cf) hm (sorter hm) swapping_ok ltac:(rewrite map_length; congruence) eq_refl HP 0) as (c' & h' & E & L1 & L2 & F).
    exists (c', h'). split; [exact E|]. unfold follows. cbn [fst snd]. auto.
  - intros x Hx. rewrite Forall_forall in HC. replace (snd x =? 0) with false by (symmetry; apply Z.eqb_neq; now apply HC). rewrite dens_fold, Z.mul_1_l. reflexivity.
Qed.
