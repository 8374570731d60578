(** C27, C28, C29: Taylor shift, truncated sign variation count, Descartes' rule. *)
From Coq Require Import ZArith List Arith Lia Reals Lra Bool.
From Verif Require Import PolySpec ModInvModel TaylorModel DescModel PolyProofs TaylorProofs DescProofs DescLoopProofs RootProofs.
Import ListNotations.
Open Scope R_scope.

(** ** C27 *)
Theorem C27_naive u deg : length u = S deg -> deg <> 0%nat ->
  exists v, taylorshift1_naive u deg = Some v /\ length v = S deg /\ forall x, zeval v x = zeval u (x + 1).
Proof.
  intros Hl Hd. exists (tsh u). split; [apply naive_ok; assumption|]. split; [rewrite tsh_length; assumption|]. apply zeval_tsh.
Qed.
Print Assumptions C27_naive.

(** [pwx] is the block size and [npwr] the number of table entries; the tables are those the solver computes. *)
Theorem C27_divide_and_conquer u deg pwx npwr tbl : length u = S deg -> deg <> 0%nat -> (2 <= pwx)%nat ->
  (Nat.log2 (deg / pwx) <= npwr)%nat -> compute_shift_pwx npwr pwx = Some tbl ->
  exists v, taylorshift1_dac u deg tbl pwx = Some v /\ length v = S deg /\ forall x, zeval v x = zeval u (x + 1).
Proof.
  intros Hl Hd Hp Hn Ht. destruct (compute_shift_pwx_ok npwr pwx ltac:(lia)) as (tbl' & E & G).
  rewrite Ht in E. injection E as <-. exists (tsh u). split; [|split; [rewrite tsh_length; assumption|apply zeval_tsh]].
  apply dac_ok; auto. intros i Hi. apply G. unfold nblocks_of in Hi. destruct (deg <=? pwx)%nat; [cbn in Hi; lia|].
  rewrite Nat.log2_pow2 in Hi by lia. lia.
Qed.
Print Assumptions C27_divide_and_conquer.

(** The tables exist for every block size. *)
Theorem C27_tables npwr pwx : pwx <> 0%nat -> exists tbl, compute_shift_pwx npwr pwx = Some tbl /\
  forall i, (i < npwr)%nat -> exists s, nth_error tbl i = Some s /\ length s = S (pwx * 2 ^ i) /\
    forall x, zev s x = ((x + 1) ^ Z.of_nat (pwx * 2 ^ i))%Z.
Proof.
  intros H. destruct (compute_shift_pwx_ok npwr pwx H) as (tbl & E & G). exists tbl. split; [assumption|].
  intros i Hi. destruct (G i Hi) as (s & E1 & L & E2). eauto.
Qed.
Print Assumptions C27_tables.

(** For a constant polynomial the loop bound deg-1 wraps around and the loop runs out of the array. *)
Theorem C27_constant_refuted c : taylorshift1_naive [c] 0 = None.
Proof. reflexivity. Qed.
Print Assumptions C27_constant_refuted.

Example C27_ex : taylorshift1_naive [1; 2; 3; 4]%Z 3 = Some [10; 20; 15; 4]%Z.
Proof. reflexivity. Qed.
Example C27_ex_dac : (let? tbl := compute_shift_pwx 1 2 in taylorshift1_dac [1; -2; 3; 4; 0; 8]%Z 5 tbl 2) =
  taylorshift1_naive [1; -2; 3; 4; 0; 8]%Z 5 /\ nblocks_of 5 2 = 2%nat.
Proof. vm_compute. auto. Qed.

(** ** C28 *)
Lemma zeval_unique p q : length p = length q -> (forall x, 0 < x -> zeval p x = zeval q x) -> p = q.
Proof.
  intros Hl H. apply zev_inj; [assumption|]. intros x Hx. apply eq_IZR. rewrite <- !zeval_IZR. apply H. apply IZR_lt. lia.
Qed.
Lemma table_good deg pwx npwr tbl : (2 <= pwx)%nat -> (Nat.log2 (deg / pwx) <= npwr)%nat -> compute_shift_pwx npwr pwx = Some tbl ->
  good_table pwx tbl (Nat.log2 (nblocks_of deg pwx)).
Proof.
  intros Hp Hn Ht. destruct (compute_shift_pwx_ok npwr pwx ltac:(lia)) as (tbl' & E & G).
  rewrite Ht in E. injection E as <-. intros i Hi. apply G. unfold nblocks_of in Hi. destruct (deg <=? pwx)%nat; [cbn in Hi; lia|].
  rewrite Nat.log2_pow2 in Hi by lia. lia.
Qed.

(** Truncated test on the polynomial [u] (nonzero leading coefficient): it never fails, and an answer is the number of sign
    variations of the exactly shifted polynomial [v], cut at 3, whatever the truncation does to the coefficients. *)
Theorem C28_truncated u deg nbits pwx npwr tbl v : length u = S deg -> deg <> 0%nat -> (2 <= pwx)%nat ->
  (Nat.log2 (deg / pwx) <= npwr)%nat -> compute_shift_pwx npwr pwx = Some tbl -> lead_ok u ->
  length v = S deg -> (forall x, 0 < x -> zeval v x = zeval u (x + 1)) ->
  exists r, descartes_truncate u deg nbits tbl pwx = Some r /\
    forall n, r = Some n -> (n = Nat.min 3 (variations v))%nat.
Proof.
  intros Hl Hd Hp Hn Ht [Hu Hlead] Hv He.
  assert (V : v = tsh u) by (apply zeval_unique; [rewrite tsh_length; congruence|intros; rewrite zeval_tsh; auto]).
  assert (N : nth deg u 0%Z <> 0%Z).
  { destruct (exists_last Hu) as (l & b & ->). rewrite last_last in Hlead. rewrite app_length in Hl. cbn in Hl.
    rewrite app_nth2 by lia. replace (deg - length l)%nat with 0%nat by lia. assumption. }
  unfold descartes_truncate. rewrite getz_some by lia. cbn [obind].
  destruct (truncation_ok (nth deg u 0%Z) nbits deg N) as [T1 T2]. set (t := truncation _ _ _) in *.
  destruct (dac_wsgnvar_ok u t deg tbl pwx Hl Hd Hp T1 (table_good _ _ _ _ Hp Hn Ht)) as (r & E & R).
  - unfold tr. rewrite nth_map0 by (apply Z.quot_0_l; pose proof (Z.pow_pos_nonneg 2 t); lia). assumption.
  - exists r. split; [exact E|]. rewrite V. exact R.
Qed.
Print Assumptions C28_truncated.

(** The whole test: number of sign variations, cut at 3, of the numerator [v] of P(1/(y+1)). *)
Theorem C28_descartes u deg pwx npwr tbl v : length u = S deg -> deg <> 0%nat -> (2 <= pwx)%nat ->
  (Nat.log2 (deg / pwx) <= npwr)%nat -> compute_shift_pwx npwr pwx = Some tbl -> nth 0 u 0%Z <> 0%Z ->
  length v = S deg -> (forall y, 0 < y -> zeval v y = (y + 1) ^ deg * zeval u (/ (y + 1))) ->
  descartes u deg tbl pwx = Some (Nat.min 3 (variations v)).
Proof.
  intros Hl Hd Hp Hn Ht H0 Hv He.
  assert (V : v = tsh (rev u)).
  { apply zeval_unique; [rewrite tsh_length, rev_length; congruence|]. intros y Hy. rewrite He, moebius_eval by lra.
    replace (length u - 1)%nat with deg by lia. reflexivity. }
  rewrite V. apply descartes_ok; auto. apply table_good with npwr; assumption.
Qed.
Print Assumptions C28_descartes.

(** Non-vacuous: the truncated answer is used (early test, then full shift), and is refused on small coefficients. *)
Example C28_ex_used :
  (let? tbl := compute_shift_pwx 1 2 in descartes_truncate [2^90; 2^90 * 5; 2^90; 3; 2^95]%Z 4 96 tbl 2) = Some (Some 0%nat) /\
  (let? tbl := compute_shift_pwx 1 2 in descartes_truncate [-(2^98); 2^93 * 5; -(2^95); 2^93; 2^95]%Z 4 96 tbl 2) = Some (Some 1%nat).
Proof. vm_compute. auto. Qed.
Example C28_ex_refused : (let? tbl := compute_shift_pwx 1 2 in descartes_truncate [1; -2; 3; -4; 5]%Z 4 3 tbl 2) = Some None.
Proof. vm_compute. reflexivity. Qed.

(** ** C29 *)
(** Descartes' rule: distinct positive roots are at most the sign variations. *)
Theorem C29_rule p l : lead_ok p -> increasing l -> (forall x, In x l -> 0 < x /\ root p x) -> (length l <= variations p)%nat.
Proof.
  intros [Hp Hlead] Hi Hl. rewrite <- chg_variations. apply descartes_upper; auto.
  exists (IZR (last p 0%Z)). split; [|apply not_0_IZR; assumption]. apply in_map.
  destruct (exists_last Hp) as (q & b & ->). rewrite last_last. apply in_or_app. right. left. reflexivity.
Qed.
Print Assumptions C29_rule.

Theorem C29_odd p : Nat.odd (variations p) = true -> exists x, 0 < x /\ root p x.
Proof.
  intros H. rewrite <- chg_variations in H. apply odd_root0. rewrite <- Nat.negb_odd, H. reflexivity.
Qed.
Print Assumptions C29_odd.

(** The meaning of the answers of the solver's test for the open interval (0,1). *)
Theorem C29_interval u deg pwx npwr tbl nb : length u = S deg -> deg <> 0%nat -> (2 <= pwx)%nat ->
  (Nat.log2 (deg / pwx) <= npwr)%nat -> compute_shift_pwx npwr pwx = Some tbl -> lead_ok u -> nth 0 u 0%Z <> 0%Z ->
  descartes u deg tbl pwx = Some nb ->
  (nb <= 3)%nat /\
  (nb = 0%nat -> forall x, 0 < x < 1 -> ~ root u x) /\
  (nb = 1%nat -> exists x, 0 < x < 1 /\ root u x /\ forall y, 0 < y < 1 -> root u y -> y = x) /\
  (nb = 2%nat -> forall l, increasing l -> (forall x, In x l -> 0 < x < 1 /\ root u x) -> (length l <= 2)%nat).
Proof.
  intros Hl Hd Hp Hn Ht Hlead H0 E. rewrite (descartes_ok u deg tbl pwx Hl Hd Hp (table_good _ _ _ _ Hp Hn Ht) H0) in E.
  assert (E' : nb = Nat.min 3 (dvar u)) by (unfold dvar; congruence). clear E. split; [lia|]. split; [|split].
  - intros ->. apply dvar_zero; [assumption|lia].
  - intros ->. apply dvar_one; [assumption|lia].
  - intros -> l Hi Hr. replace 2%nat with (dvar u) by lia. apply dvar_upper; assumption.
Qed.
Print Assumptions C29_interval.

(** The pruning test: the answer 0 on the coefficients themselves means that there is no positive root. *)
Theorem C29_prune u deg r : length u = S deg -> deg <> 0%nat -> lead_ok u ->
  sgn_variations_is_zero u deg = Some r -> (r <= 1)%nat /\ (r = 0%nat <-> variations u = 0%nat) /\ (r = 0%nat -> forall x, 0 < x -> ~ root u x).
Proof.
  intros Hl Hd [Hu Hlead] E.
  assert (N : nth deg u 0%Z <> 0%Z).
  { destruct (exists_last Hu) as (l & b & ->). rewrite last_last in Hlead. rewrite app_length in Hl. cbn in Hl.
    rewrite app_nth2 by lia. replace (deg - length l)%nat with 0%nat by lia. assumption. }
  rewrite is_zero_ok in E by assumption. assert (E' : r = Nat.min 1 (variations u)) by congruence.
  split; [lia|]. split; [lia|]. intros -> x Hx Hr. pose proof (C29_rule u [x] (conj Hu Hlead) I) as B. cbn [length] in B.
  assert (1 <= variations u)%nat by (apply B; intros y [<-|[]]; auto). lia.
Qed.
Print Assumptions C29_prune.

(** 8x^2 - 6x + 1 = (2x-1)(4x-1) has two roots in (0,1); 2x - 1 has one; x^2+x+1 has none. *)
Example C29_ex : (let? tbl := compute_shift_pwx 0 2 in descartes [1; -6; 8]%Z 2 tbl 2) = Some 2%nat /\
  (let? tbl := compute_shift_pwx 0 2 in descartes [-1; 2]%Z 1 tbl 2) = Some 1%nat /\
  (let? tbl := compute_shift_pwx 0 2 in descartes [1; 1; 1]%Z 2 tbl 2) = Some 0%nat.
Proof. vm_compute. auto. Qed.
