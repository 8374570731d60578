(** C86: approximant bases of a matrix of polynomials modulo a prime. *)
From Coq Require Import ZArith Arith List Bool Lia Permutation Setoid Morphisms Znumtheory Sorted.
From Verif Require Import ModInvModel LinSpec FglmSpec MatVecProofs LnullSpec LnullModel LnullProofs LnullProps AppSpec AppModel AppProofs AppRunProofs.
Import ListNotations.
Open Scope Z_scope.

Lemma not_unit p : 1 < p -> ~ eqp p 1 0.
Proof. intros H [z Hz]. rewrite Z.sub_0_r in Hz. assert (z * p = 1) by auto. destruct (Z.lt_trichotomy z 0) as [|[|]]; nia. Qed.

(** increasing lists with the same elements *)
Lemma sorted_unique : forall a b, StronglySorted lt a -> StronglySorted lt b -> Permutation a b -> a = b.
Proof.
  induction a as [|x a IH]; intros b Ha Hb P; [apply Permutation_nil in P; auto|].
  destruct b as [|y b]; [apply Permutation_sym, Permutation_nil in P; discriminate|].
  inversion Ha as [|? ? Ha1 Ha2]; inversion Hb as [|? ? Hb1 Hb2]; subst. rewrite Forall_forall in Ha2, Hb2.
  assert (x = y). { pose proof (Permutation_in x P (or_introl eq_refl)) as I1. pose proof (Permutation_in y (Permutation_sym P) (or_introl eq_refl)) as I2.
    destruct I1 as [I1|I1]; [auto|]. destruct I2 as [I2|I2]; [auto|]. apply Hb2 in I1. apply Ha2 in I2. lia. }
  subst y. f_equal. apply IH; auto. apply (Permutation_cons_inv P).
Qed.

Lemma iterate_ok p m n flen F ker : p <> 0 -> ker_ok p m n ker -> (forall d r c, (flen <= d)%nat -> F d r c = 0) ->
  forall k ord st, inv p m n F ord st -> exists st' b, iterate p m n ker flen F k ord st = Some (st', b) /\
    (b = false -> inv p m n F (ord + k) st') /\
    (b = true -> exists o, (ord <= o < ord + k)%nat /\ inv p m n F o st' /\
       forall v, (forall c, (c < n)%nat -> eqp p (sumn m (fun r => v r * mulc m (fun e j => co st' e r j) F o c)) 0) -> forall r, (r < m)%nat -> eqp p (v r) 0).
Proof.
  intros Hp Hker HF. induction k as [|k IH]; intros ord st HI.
  - exists st, false. split; [reflexivity|]. rewrite Nat.add_0_r. split; [auto|discriminate].
  - cbn [iterate]. set (res := if (ord =? 0)%nat then F 0%nat else mul_coeff p m (ln st) flen (co st) F ord). set (perm := shift_perm m (sh st)).
    pose proof (shift_perm_ok m (sh st)) as HP. fold perm in HP.
    destruct (Hker (fun i c => res (nth i perm 0%nat) c)) as (K & N & HK & EN & HG).
    set (kr := ker (fun i c => res (nth i perm 0%nat) c)) in *. cbv zeta. rewrite EN.
    destruct (C85_compact p m n _ K N (fst kr) (repeat 0%nat m) HK HG (repeat_length _ _)) as (R & Y & EC & PRN & _ & _ & LR & _ & HY).
    rewrite EC. cbn [obind fst snd]. pose proof (N_le p m n _ K N HK) as HNm.
    assert (RO : forall r c, (r < m)%nat -> eqp p (res r c) (mulc m (fun e j => co st e r j) F ord c)) by (intros r c Hr; apply (res_ok p m n flen F Hp HF); auto).
    destruct (Nat.eqb_spec (length N) 0) as [E0|E0].
    + exists st, true. split; [reflexivity|]. split; [discriminate|]. intros _. exists ord. split; [lia|]. split; [exact HI|].
      intros v Hv r Hr. destruct (idx_lt m perm r HP Hr) as [Hi Ei].
      pose proof (kernel_coords p m n _ K N (fun s => v (nth s perm 0%nat)) HK) as KC. rewrite E0 in KC. cbn [sumn] in KC. rewrite <- Ei. apply KC; [|exact Hi].
      intros c Hc. rewrite <- (Hv c Hc). rewrite (sum_perm m perm (fun r => v r * mulc m (fun e j => co st e r j) F ord c) HP). apply sumn_eqp. intros s Hs. rewrite (RO (nth s perm 0%nat) c) by (apply (perm_lt m); auto). reflexivity.
    + replace (ord + S k)%nat with (S ord + k)%nat by lia. assert (HI' : inv p m n F (S ord) (if (length N <? m)%nat then update p m (length N) perm (R ++ N) Y st else st)).
      { destruct (Nat.ltb_spec (length N) m) as [Hl|Hl].
        - apply (update_ok p m n flen F Hp HF ord st perm K N R Y); auto.
        - destruct HI as [H1 H2 H3 H4]. constructor; auto; [|discriminate]. apply basis_same; auto. intros r c Hr Hc. rewrite <- (RO r c Hr).
          assert (R = []) by (destruct R; [reflexivity|cbn in LR; lia]). subst R. cbn [app] in PRN.
          assert (EN' : forall i, (i < m)%nat -> nth i N 0%nat = i).
          { intros i Hi. pose proof (gaps_length m N 0) as _. assert (HS : N = seq 0 m); [|rewrite HS, seq_nth by auto; reflexivity].
            apply (sorted_unique N (seq 0 m)); [apply (k_asc _ _ _ _ _ _ HK)|apply seq_sorted|exact PRN]. }
          destruct (idx_lt m perm r HP Hr) as [Hi Ei]. set (i := idx r perm) in *.
          pose proof (k_null _ _ _ _ _ _ HK i ltac:(lia) c Hc) as HZ. cbv beta in HZ. rewrite <- HZ.
          rewrite (sumn_ext m _ (fun k => if (k =? i)%nat then res (nth k perm 0%nat) c else 0)).
          + rewrite sumn_delta by auto. rewrite Ei. reflexivity.
          + intros s Hs. rewrite <- (EN' s Hs) at 1. rewrite (k_one _ _ _ _ _ _ HK) by lia. rewrite Nat.eqb_sym. destruct (s =? i)%nat; ring. }
      assert (EI : (if (length N <? m)%nat then iterate p m n ker flen F k (S ord) (update p m (length N) perm (R ++ N) Y st) else iterate p m n ker flen F k (S ord) st)
        = iterate p m n ker flen F k (S ord) (if (length N <? m)%nat then update p m (length N) perm (R ++ N) Y st else st)) by (destruct (length N <? m)%nat; reflexivity).
      rewrite EI. destruct (IH (S ord) _ HI') as (st' & b & E & HA & HB'). exists st', b. split; [exact E|]. split; [exact HA|].
      intros Hb. destruct (HB' Hb) as (o & Ho & Q). exists o. split; [lia|exact Q].
Qed.

Lemma one_basis p m n F : basis_of p m n F 0 one.
Proof.
  assert (E : forall a t j, (j < m)%nat -> mulc m a one t j = a t j).
  { intros a t j Hj. unfold mulc. cbn [sumn]. rewrite (sumn_zero_ext t).
    - rewrite Nat.sub_diag, Z.add_0_l. rewrite (sumn_ext m _ (fun r => if (r =? j)%nat then a t r else 0)); [apply sumn_delta; auto|]. intros r Hr. unfold one. destruct (r =? j)%nat; ring.
    - intros d Hd. apply sumn_zero_ext. intros r Hr. replace (t - d)%nat with (S (t - d - 1)) by lia. cbn [one]. ring. }
  constructor.
  - intros r Hr t c Ht. lia.
  - intros q Hq _. exists q. split; auto. intros t j Hj. rewrite E by auto. reflexivity.
  - intros a Ha d r Hr. rewrite <- (E a d r Hr). apply Ha. auto.
Qed.

(** A nonzero input: unless the loop is left early, the rows of the result are a basis of the module of all approximants of the order asked for. *)
Theorem C86_basis : forall p m n ker flen F order shift, p <> 0 -> ker_ok p m n ker -> (0 < flen)%nat -> (forall d r c, (flen <= d)%nat -> F d r c = 0) ->
  exists st early, mbasis p m n ker flen F order shift = Some (st, early) /\ (early = false -> basis_of p m n F order (co st)).
Proof.
  intros p m n ker flen F order shift Hp Hk Hl HF. unfold mbasis. destruct (Nat.eqb_spec flen 0); [lia|].
  destruct (iterate_ok p m n flen F ker Hp Hk HF order 0 {| ln := 1; co := one; sh := shift |}) as (st & b & E & H1 & _).
  - constructor; cbn [ln co]; [apply one_basis|lia|intros [|d] r j Hd; [lia|reflexivity]|auto].
  - exists st, b. split; [exact E|]. intros Hb. apply (i_basis _ _ _ _ _ _ (H1 Hb)).
Qed.
Print Assumptions C86_basis.

(** The early exit: the comment says that the basis is X^(order-ord) times the current one, but the current one is returned; it is never a basis
    of the order asked for. *)
Theorem C86_early_refuted : forall p m n ker flen F order shift st, 1 < p -> (0 < m)%nat -> ker_ok p m n ker -> (0 < flen)%nat ->
  (forall d r c, (flen <= d)%nat -> F d r c = 0) -> mbasis p m n ker flen F order shift = Some (st, true) ->
  ~ basis_of p m n F order (co st) /\ exists o, (o < order)%nat /\ basis_of p m n F o (co st).
Proof.
  intros p m n ker flen F order shift st Hp Hm Hk Hl HF HE. unfold mbasis in HE. destruct (Nat.eqb_spec flen 0); [lia|].
  destruct (iterate_ok p m n flen F ker ltac:(lia) Hk HF order 0 {| ln := 1; co := one; sh := shift |}) as (st' & b & E & _ & H2).
  - constructor; cbn [ln co]; [apply one_basis|lia|intros [|d] r j Hd; [lia|reflexivity]|auto].
  - rewrite E in HE. injection HE as -> ->. destruct (H2 eq_refl) as (o & Ho & HI & HV). split; [|exists o; split; [lia|apply (i_basis _ _ _ _ _ _ HI)]].
    intros HB. apply (not_unit p Hp). apply (HV (fun _ => 1)) with (r := 0%nat); [|exact Hm].
    intros c Hc. rewrite <- (sumn_zero m). apply sumn_eqp. intros r Hr. rewrite (b_in _ _ _ _ _ _ HB r Hr o c) by (auto; lia). reflexivity.
Qed.
Print Assumptions C86_early_refuted.

(** The zero input: all vectors are approximants, but the result is x^order times the identity. *)
Theorem C86_zero_refuted : forall p m n ker F order shift, 1 < p -> (0 < m)%nat -> (0 < order)%nat -> (forall d r c, F d r c = 0) ->
  exists st early, mbasis p m n ker 0 F order shift = Some (st, early) /\ ~ basis_of p m n F order (co st) /\ basis_of p m n F order one.
Proof.
  intros p m n ker F order shift Hp Hm Ho HF. eexists _, _. split; [reflexivity|]. cbn [co].
  assert (HA : forall q, approximant p m n F order q).
  { intros q t c _ _. unfold mulc. rewrite (sumn_zero_ext (S t)); [reflexivity|]. intros d Hd. apply sumn_zero_ext. intros r Hr. rewrite HF. ring. }
  split.
  - intros HB. destruct (b_gen _ _ _ _ _ _ HB (fun d j => one d 0 j)) as (a & _ & Ha); [exists 1%nat; intros [|d] r Hd Hr; [lia|reflexivity]|apply HA|].
    apply (not_unit p Hp). specialize (Ha 0%nat 0%nat Hm). cbn [one] in Ha. etransitivity; [exact Ha|]. unfold mulc. cbn [sumn Nat.sub].
    rewrite (sumn_zero_ext m); [reflexivity|]. intros r Hr. destruct (Nat.eqb_spec 0 order); [lia|ring].
  - destruct (one_basis p m n F) as [_ H2 H3]. constructor; [intros r Hr; apply HA| |exact H3]. intros q Hq _. apply H2; [exact Hq|]. intros t c Ht. lia.
Qed.
Print Assumptions C86_zero_refuted.

(** The pairs of the shift are sorted by a permutation of the rows. *)
Theorem C86_order : forall m s, Permutation (shift_perm m s) (seq 0 m) /\
  StronglySorted (fun a b => s a < s b \/ s a = s b /\ (a < b)%nat) (shift_perm m s).
Proof.
  intros m s. split; [apply shift_perm_ok|]. unfold shift_perm.
  assert (G : forall l, NoDup l -> StronglySorted (fun a b => s a < s b \/ s a = s b /\ (a < b)%nat) (map snd (isort (map (fun i => (s i, i)) l)))); [|apply G, seq_NoDup].
  assert (Hin : forall l x, In x (isort (map (fun i => (s i, i)) l)) -> fst x = s (snd x) /\ In (snd x) l).
  { intros l x Hx. apply (Permutation_in _ (isort_perm _)) in Hx. apply in_map_iff in Hx. destruct Hx as (i & <- & Hi). auto. }
  induction l as [|a l IH]; intros ND; [constructor|]. inversion ND as [|? ? Na Nl]; subst. cbn [map isort]. specialize (IH Nl). specialize (Hin l).
  assert (Hne : forall x, In x (isort (map (fun i => (s i, i)) l)) -> fst x = s (snd x) /\ snd x <> a).
  { intros x Hx. destruct (Hin x Hx) as [H1 H2]. split; [exact H1|]. intros E. rewrite E in H2. auto. }
  clear Hin. revert IH Hne. generalize (isort (map (fun i => (s i, i)) l)). clear. intros L. induction L as [|b L IHL]; intros HS Hne.
  - constructor; constructor.
  - cbn [map] in HS. inversion HS as [|? ? S1 S2]; subst. rewrite Forall_forall in S2. destruct (Hne b (or_introl eq_refl)) as [Hb1 Hb2]. cbn [ins]. unfold pair_le. cbn [fst snd]. rewrite Hb1.
    assert (HT : (if s a =? s (snd b) then (a <=? snd b)%nat else s a <? s (snd b)) = true -> s a < s (snd b) \/ s a = s (snd b) /\ (a < snd b)%nat).
    { destruct (Z.eqb_spec (s a) (s (snd b))); [rewrite Nat.leb_le; right; split; [auto|lia]|rewrite Z.ltb_lt; auto]. }
    assert (HFa : (if s a =? s (snd b) then (a <=? snd b)%nat else s a <? s (snd b)) = false -> s (snd b) < s a \/ s (snd b) = s a /\ (snd b < a)%nat).
    { destruct (Z.eqb_spec (s a) (s (snd b))); [rewrite Nat.leb_gt; right; split; [auto|lia]|rewrite Z.ltb_ge; left; lia]. }
    destruct (if s a =? s (snd b) then (a <=? snd b)%nat else s a <? s (snd b)).
    + cbn [map snd]. specialize (HT eq_refl). constructor; [exact HS|]. constructor; [exact HT|]. apply Forall_forall. intros y Hy. specialize (S2 y Hy). cbv beta in *. lia.
    + cbn [map]. specialize (HFa eq_refl). constructor; [apply IHL; [exact S1|intros x Hx; apply Hne; right; exact Hx]|]. apply Forall_forall. intros y Hy.
      apply (Permutation_in _ (Permutation_map snd (ins_perm (s a, a) L))) in Hy. destruct Hy as [<-|Hy]; [exact HFa|apply S2, Hy].
Qed.
Print Assumptions C86_order.

(** Cases meeting the hypotheses: kernels modulo 7 of matrices with one column and two rows or one. *)
Definition ker2 (M : nat -> nat -> Z) : list (list Z) * nat :=
  let a := M 0%nat 0%nat mod 7 in let b := M 1%nat 0%nat mod 7 in
  if a =? 0 then (if b =? 0 then ([[1; 0]; [0; 1]], 2%nat) else ([[1]; [0]], 1%nat)) else ([[(- b * a ^ 5) mod 7]; [1]], 1%nat).
Definition ker1 (M : nat -> nat -> Z) : list (list Z) * nat := if M 0%nat 0%nat mod 7 =? 0 then ([[1]], 1%nat) else ([[]], 0%nat).

Lemma fermat7 a : 0 < a < 7 -> eqp 7 (a ^ 6) 1.
Proof.
  intros H. assert (C : a = 1 \/ a = 2 \/ a = 3 \/ a = 4 \/ a = 5 \/ a = 6) by lia.
  destruct C as [->|[->|[->|[->|[->| ->]]]]]; apply Z.mod_divide; (lia || reflexivity).
Qed.

Lemma ker2_ok : ker_ok 7 2 1 ker2.
Proof.
  intros M. unfold ker2. set (a := M 0%nat 0%nat mod 7). set (b := M 1%nat 0%nat mod 7).
  assert (Ea : eqp 7 (M 0%nat 0%nat) a) by (symmetry; apply eqp_mod; lia). assert (Eb : eqp 7 (M 1%nat 0%nat) b) by (symmetry; apply eqp_mod; lia).
  pose proof (Z.mod_pos_bound (M 0%nat 0%nat) 7 ltac:(lia)) as Ba. fold a in Ba. pose proof (Z.mod_pos_bound (M 1%nat 0%nat) 7 ltac:(lia)) as Bb. fold b in Bb. clearbody a b.
  assert (two : forall r, (r < 2)%nat -> r = 0%nat \/ r = 1%nat) by lia.
  destruct (Z.eqb_spec a 0) as [Ha|Ha]; [destruct (Z.eqb_spec b 0) as [Hb|Hb]|].
  - exists (fn [[1; 0]; [0; 1]]), [0; 1]%nat. split; [|split; [reflexivity|]].
    + constructor.
      * repeat constructor.
      * intros x [<-|[<-|[]]]; lia.
      * cbn [length]. intros i k Hi Hk. destruct (two i Hi) as [->| ->], (two k Hk) as [->| ->]; reflexivity.
      * cbn [length]. intros i r Hi Hr. destruct (two i Hi) as [->| ->]; cbn in Hr; [destruct (two r ltac:(lia)) as [->| ->]; [lia|reflexivity]|lia].
      * cbn [length]. intros i Hi c Hc. replace c with 0%nat by lia. cbn [sumn]. rewrite Ea, Eb, Ha, Hb. rewrite !Z.mul_0_r. reflexivity.
      * intros v _. exists v. intros r Hr. cbn [length sumn]. destruct (two r Hr) as [->| ->]; cbn; exists 0; ring.
    + unfold given. cbn [fst length]. intros i j Hi Hj. destruct (two i Hi) as [->| ->], (two j Hj) as [->| ->]; reflexivity.
  - exists (fn [[1]; [0]]), [0]%nat. split; [|split; [reflexivity|]].
    + constructor.
      * repeat constructor.
      * intros x [<-|[]]; lia.
      * cbn [length]. intros i k Hi Hk. replace i with 0%nat by lia. replace k with 0%nat by lia. reflexivity.
      * cbn [length]. intros i r Hi Hr. replace i with 0%nat in * by lia. cbn in Hr. replace r with 1%nat by lia. reflexivity.
      * cbn [length]. intros i Hi c Hc. replace c with 0%nat by lia. replace i with 0%nat by lia. cbn [sumn]. unfold fn. cbn [nth]. rewrite Ea, Ha. exists 0. ring.
      * intros v Hv. exists v. specialize (Hv 0%nat ltac:(lia)). cbn [sumn] in Hv. rewrite Ea, Eb, Ha, Z.mul_0_r, !Z.add_0_l in Hv.
        intros r Hr. cbn [length sumn]. unfold fn. destruct (two r Hr) as [->| ->]; cbn [nth]; [exists 0; ring|]. rewrite Z.mul_0_r, Z.add_0_l.
        destruct Hv as [z Hz]. rewrite Z.sub_0_r in Hz.
        destruct (fermat7 b ltac:(lia)) as [y Hy]. exists (b ^ 5 * z - v 1%nat * y).
        replace ((b ^ 5 * z - v 1%nat * y) * 7) with (b ^ 5 * (z * 7) - v 1%nat * (y * 7)) by ring. rewrite <- Hy, <- Hz. ring.
    + unfold given. cbn [fst length]. intros i j Hi Hj. replace j with 0%nat by lia. destruct (two i Hi) as [->| ->]; reflexivity.
  - exists (fn [[(- b * a ^ 5) mod 7]; [1]]), [1]%nat. split; [|split; [reflexivity|]].
    + constructor.
      * repeat constructor.
      * intros x [<-|[]]; lia.
      * cbn [length]. intros i k Hi Hk. replace i with 0%nat by lia. replace k with 0%nat by lia. reflexivity.
      * cbn [length]. intros i r Hi Hr. replace i with 0%nat in * by lia. cbn in Hr. lia.
      * cbn [length]. intros i Hi c Hc. replace c with 0%nat by lia. replace i with 0%nat by lia. cbn [sumn]. unfold fn. cbn [nth]. rewrite eqp_mod by lia. rewrite Ea, Eb.
        destruct (fermat7 a ltac:(lia)) as [z Hz]. exists (- b * z). replace (0 + - b * a ^ 5 * a + 1 * b - 0) with (- b * (a ^ 6 - 1)) by ring. rewrite Hz. ring.
      * intros v Hv. exists (fun _ => v 1%nat). specialize (Hv 0%nat ltac:(lia)). cbn [sumn] in Hv. rewrite Ea, Eb in Hv.
        intros r Hr. cbn [length sumn]. unfold fn. destruct (two r Hr) as [->| ->]; cbn [nth]; [|exists 0; ring]. rewrite eqp_mod by lia.
        destruct (fermat7 a ltac:(lia)) as [z Hz], Hv as [y Hy]. exists (a ^ 5 * y - v 0%nat * z).
        replace ((a ^ 5 * y - v 0%nat * z) * 7) with (a ^ 5 * (y * 7) - v 0%nat * (z * 7)) by ring. rewrite <- Hy, <- Hz. ring.
    + unfold given. cbn [fst length]. intros i j Hi Hj. replace j with 0%nat by lia. destruct (two i Hi) as [->| ->]; reflexivity.
Qed.

(** [1 + 3x, 2 + x^2] of order 3: the loop is not left early, and the basis has degree 2. *)
Definition F2 (d r c : nat) : Z := fn [[1; 2]; [3; 0]; [0; 1]] d r.
Definition table (m : nat) (st : state) : list (list (list Z)) := map (fun d => map (fun i => map (co st d i) (seq 0 m)) (seq 0 m)) (seq 0 (ln st)).
Example C86_basis_ex : match mbasis 7 2 1 ker2 3 F2 3 (fun _ => 0) with
  | Some (st, e) => table 2 st = [[[0; 0]; [6; 4]]; [[2; 6]; [1; 1]]; [[1; 0]; [0; 0]]] /\ sh st 0%nat = 2 /\ sh st 1%nat = 1 /\ e = false
  | None => False end.
Proof. vm_compute. repeat split. Qed.
Example C86_basis_hyp_ex : forall d r c, (3 <= d)%nat -> F2 d r c = 0.
Proof. intros [|[|[|d]]] r c H; try lia. unfold F2, fn. cbn [nth]. destruct d; cbn; destruct r; reflexivity. Qed.

(** The constant 3: the loop is left in the first round, and 1 is returned for every order. *)
Lemma ker1_ok : ker_ok 7 1 1 ker1.
Proof.
  intros M. unfold ker1. assert (Ea : eqp 7 (M 0%nat 0%nat) (M 0%nat 0%nat mod 7)) by (symmetry; apply eqp_mod; lia).
  pose proof (Z.mod_pos_bound (M 0%nat 0%nat) 7 ltac:(lia)) as Ba. set (a := M 0%nat 0%nat mod 7) in *. clearbody a. destruct (Z.eqb_spec a 0) as [Ha|Ha].
  - exists (fn [[1]]), [0]%nat. split; [|split; [reflexivity|]].
    + constructor.
      * repeat constructor.
      * intros x [<-|[]]; lia.
      * cbn [length]. intros i k Hi Hk. replace i with 0%nat by lia. replace k with 0%nat by lia. reflexivity.
      * cbn [length]. intros i r Hi Hr. replace i with 0%nat in * by lia. cbn in Hr. lia.
      * cbn [length]. intros i Hi c Hc. replace c with 0%nat by lia. replace i with 0%nat by lia. cbn [sumn]. rewrite Ea, Ha, Z.mul_0_r. reflexivity.
      * intros v _. exists v. intros r Hr. replace r with 0%nat by lia. cbn. exists 0. ring.
    + unfold given. cbn [fst length]. intros i j Hi Hj. replace j with 0%nat by lia. replace i with 0%nat by lia. reflexivity.
  - exists (fun _ _ => 0), []. split; [|split; [reflexivity|]].
    + constructor; try (cbn [length]; intros; lia); [constructor|intros x []|].
      intros v Hv. exists v. intros r Hr. replace r with 0%nat by lia. cbn [length sumn]. specialize (Hv 0%nat ltac:(lia)). cbn [sumn] in Hv. rewrite Ea, Z.add_0_l in Hv.
      destruct Hv as [z Hz]. destruct (fermat7 a ltac:(lia)) as [y Hy]. exists (a ^ 5 * z - v 0%nat * y).
      replace ((a ^ 5 * z - v 0%nat * y) * 7) with (a ^ 5 * (z * 7) - v 0%nat * (y * 7)) by ring. rewrite <- Hy, <- Hz. ring.
    + intros i j Hi Hj. cbn in Hj. lia.
Qed.
Example C86_early_ex : match mbasis 7 1 1 ker1 1 (fun d _ _ => if (d =? 0)%nat then 3 else 0) 4 (fun _ => 0) with
  | Some (st, e) => table 1 st = [[[1]]] /\ e = true
  | None => False end.
Proof. vm_compute. split; reflexivity. Qed.
