(** The whole computation: from the multiplication matrix to the elimination polynomial and the coordinates. *)
From Coq Require Import ZArith NArith Arith List Bool Lia Znumtheory Setoid Morphisms Ring.
From Verif Require Import LinSpec MonoSpec GbSpec GbProofs GbIdeal.
From Verif Require Import FpSpec FglmSpec ModInvModel NmodModel FpProofs BmModel BmProofs BmProps FglmModel MatVecProofs SeqProofs HankelProofs ShapeProofs ParamProofs.
Import ListNotations.
Open Scope Z_scope.

Section Pre.
Variable p : Z.
Hypothesis Hp : prime p.
Notation "a =p b" := (eqp p a b) (at level 70).
(** the sequence held by the program is reduced *)
Lemma ann_mod Q (s : nat -> Z) : annihilates p Q (fun i => s i mod p) <-> annihilates p Q s.
Proof.
  pose proof (p2 p Hp). assert (E : forall i, s i mod p =p s i) by (intros i; apply eqp_mod; lia). split; intros A i.
  - rewrite <- (apply_ext p Q _ _ E i). apply A.
  - rewrite (apply_ext p Q _ _ E i). apply A.
Qed.
Lemma min_mod Q (s : nat -> Z) : minimal_polynomial p Q (fun i => s i mod p) -> minimal_polynomial p Q s.
Proof. intros [A B]. split; [apply ann_mod; exact A|]. intros R HR. apply B. apply ann_mod. exact HR. Qed.

Lemma hmul_mod (s : nat -> Z) N w i : hmul (fun i => s i mod p) N w i =p hmul s N w i.
Proof. pose proof (p2 p Hp). unfold hmul. apply sumn_eqp. intros j _. rewrite (eqp_mod p (s (i + j)%nat)) by lia. reflexivity. Qed.
End Pre.

Section Core.
Variables (nv : nat) (p : Z) (G : pf -> Prop).
Hypothesis Hp : prime p.
Hypothesis PU : p < 1518500213.
Hypothesis NV : (1 <= nv)%nat.
Notation "a == b" := (peq p a b) (at level 70).
Notation "a =p b" := (eqp p a b) (at level 70).
Add Ring fp_ring9 : (pring p) (setoid (peq_eq p) (prext p)).
Notation n := (nv - 1)%nat.
Notation I := (ideal nv p G).
Variables (d : nat) (b : nat -> pf) (M : mat) (v0 : nat -> Z).
Notation D := (S d).
Hypothesis MM : mult_matrix nv p G D b M.
Notation hs := (hs d M v0).
Notation ev := (ev d M).
Variables (lin : nat -> bool) (bs : nat).
Hypothesis VB : var_basis nv lin b.
Hypothesis BS : (length (filter (fun k => negb (lin k)) (seq 0 n)) < bs)%nat.
Hypothesis BD : (bs < D \/ bs = 1)%nat.

Section Elim.
Variable elim : list Z.
Hypothesis ME : monic_of_degree p elim D.
Hypothesis MV : minimal_polynomial p elim hs.
Lemma elim_deg : nf p elim /\ hdeg p elim D.
Proof. clear BS BD. exact (nf_of_monic p Hp _ _ ME). Qed.
Lemma elim_in : I (uni_at nv n elim).
Proof. clear BS BD. apply (uni_zero nv p G NV d b M MM). intros t Ht. apply (ev_V1 p Hp d M v0 elim (proj2 elim_deg) MV t Ht). Qed.
Hypothesis EI : I (uni_at nv n elim).
Lemma rem_ok a : nf p a -> exists r, nrem p a elim = Some r /\ nf p r /\ (length r <= D)%nat /\ I (fun m => uni_at nv n a m - uni_at nv n r m).
Proof. clear BS BD.
  intros Na. destruct elim_deg as [Ne De]. destruct (ndivrem_ok p Hp a elim D Na Ne De) as (q & r & E & EQ & DR & _ & Nr). exists r. unfold nrem. rewrite E. unfold obind. cbn [snd]. split; [reflexivity|]. split; [exact Nr|]. split; [apply (nf_dlt p Hp); assumption|].
  eapply I_eq; [apply (uni_mul nv p G NV q elim); exact EI|]. intros m _. cbv beta. rewrite (uni_peq nv p NV a _ m EQ), (uni_padd nv NV). exists 0. ring.
Qed.
Lemma rem_small a r : nf p a -> (length a <= D)%nat -> nrem p a elim = Some r -> r = a.
Proof. clear BS BD.
  intros Na La E. destruct elim_deg as [Ne De]. destruct (ndivrem_ok p Hp a elim D Na Ne De) as (q & r' & E' & EQ & DR & _ & Nr). unfold nrem in E. rewrite E' in E. unfold obind in E. cbn [snd] in E. injection E as <-.
  apply (nf_ext p Hp); [exact Nr|exact Na|]. assert (DA : dlt p a D) by (apply (dlt_le p _ (length a)); [exact La|apply dlt_len]).
  destruct (div_unique p Hp q [] elim D r' a De DR DA) as [_ K]; [|exact K]. rewrite <- EQ. ring.
Qed.

Lemma ev_scal c f t : ev (pscal c f) t = c * ev f t.
Proof. clear BS BD. unfold ShapeProofs.ev. apply apply_pscal. Qed.
(** one coordinate *)
Lemma coord_ok Z1 Z2 k : hankel_inverse p d (fun i => hs i mod p) Z1 Z2 -> ~ pc Z1 0 =p 0 -> (k < D)%nat ->
  exists c, coord_of p Z1 Z2 elim (map (fun i => mpow D M v0 i k mod p) (seq 0 D)) D = Some c /\ nf p c /\ (length c <= D)%nat /\ I (fun m => b k m + uni_at nv n c m).
Proof.
  intros (N1 & N2 & L1 & L2 & HY & HZ) NZ Hk. pose proof (p2 p Hp). set (V := map (fun i => mpow D M v0 i k mod p) (seq 0 D)). unfold coord_of. set (sl := solve_hankel p Z1 Z2 V D).
  assert (LV : length V = D) by (unfold V; rewrite map_length, seq_length; reflexivity).
  assert (LM : forall a, length (mirror a D) = D) by (intros a; unfold mirror; rewrite rev_length, map_length, seq_length; reflexivity).
  assert (EV : forall t, (t < D)%nat -> ev (mirror sl D) t =p delta t k).
  { apply (solution_ev p Hp d M v0 elim (proj2 elim_deg) MV k); [exact Hk|rewrite LM; lia|]. intros i Hi. rewrite <- (hmul_mod p Hp hs D _ i). etransitivity; [apply (solve_hankel_ok p Hp d (fun i => hs i mod p) Z1 Z2 V); try assumption; rewrite pc_over by lia; reflexivity|]. unfold V. rewrite pc_map_seq by exact Hi. apply eqp_mod. lia. }
  set (c0 := norm p (mirror (norm p (popp sl)) D)). assert (E0 : c0 == pscal (-1) (mirror sl D)).
  { unfold c0. rewrite norm_peq by exact Hp. intros i. rewrite pc_pscal. destruct (Nat.lt_ge_cases i D) as [A|A].
    - rewrite !pc_mirror by exact A. rewrite (norm_peq p Hp (popp sl) (D - 1 - i)%nat), pc_popp. exists 0. ring.
    - rewrite !pc_over by (rewrite LM; exact A). exists 0. ring. }
  destruct (rem_ok c0 (nf_norm p Hp _)) as (r & E & Nr & Lr & Ir). exists r. split; [exact E|]. split; [exact Nr|]. split; [exact Lr|].
  eapply I_eq; [apply lspan_sub; [apply (uni_unit nv p G NV d b M MM c0 k Hk)|exact Ir]|].
  - intros t Ht. rewrite (ev_peq p d M _ _ t E0), ev_scal, EV by exact Ht. exists 0. ring.
  - intros m _. exists 0. ring.
Qed.

Definition good (q : nat) (c : list Z) : Prop := nf p c /\ (length c <= D)%nat /\ (lin q = false -> I (coord_poly nv q n c)).
Lemma filter_count (f : nat -> bool) l : (length (filter f l) + length (filter (fun k => negb (f k)) l) = length l)%nat.
Proof. induction l as [|k l IH]; [reflexivity|]. cbn [filter length]. destruct (f k); cbn [negb length]; lia. Qed.
Lemma nf_nil' : nf p [].
Proof. reflexivity. Qed.
Lemma coords_ok Z1 Z2 res : hankel_inverse p d (fun i => hs i mod p) Z1 Z2 -> ~ pc Z1 0 =p 0 ->
  (forall j, (1 <= j < bs)%nat -> hankel_rhs res D bs (S j) = Some (map (fun i => mpow D M v0 i (S j) mod p) (seq 0 D))) ->
  forall k nc dec acc, (nc + k = n)%nat -> dec = length (filter lin (seq (n - nc) nc)) -> length acc = nc ->
  (forall i, (i < nc)%nat -> good (n - nc + i) (nth i acc [])) ->
  exists cs, coords_loop p Z1 Z2 elim res D bs lin nv k nc dec acc = Some cs /\ length cs = n /\ forall q, (q < n)%nat -> good q (nth q cs []).
Proof.
  intros HI NZ HR. induction k as [|k IH]; intros nc dec acc E Ed La Ha.
  - exists acc. split; [reflexivity|]. split; [lia|]. intros q Hq. specialize (Ha q). replace (n - nc + q)%nat with q in Ha by lia. apply Ha. lia.
  - cbn [coords_loop]. set (q := (nv - 2 - nc)%nat). assert (Eq1 : (n - S nc)%nat = q) by (unfold q; lia). assert (Eq2 : (n - nc)%nat = S q) by (unfold q; lia).
    assert (SQ : seq (n - S nc) (S nc) = q :: seq (S q) nc) by (rewrite Eq1; reflexivity). rewrite Eq2 in *.
    pose proof (filter_count lin (seq (S q) nc)) as FC. rewrite seq_length, <- Ed in FC.
    destruct (lin q) eqn:Lq.
    + apply IH; [lia|rewrite SQ; cbn [filter]; rewrite Lq; cbn [length]; lia|cbn [length]; lia|]. intros i Hi. rewrite Eq1. destruct i as [|i]; cbn [nth].
      * rewrite Nat.add_0_r. split; [exact nf_nil'|]. split; [cbn [length]; lia|]. intros F. congruence.
      * replace (q + S i)%nat with (S q + i)%nat by lia. apply Ha. lia.
    + set (j := (nc + 1 - dec)%nat). replace (nc + 2 - dec)%nat with (S j) by (unfold j; lia).
      assert (VP : var_place nv lin q = S j). { unfold var_place. replace (nv - 2 - q)%nat with nc by (unfold q; lia). unfold j. lia. }
      assert (CT : (j < bs)%nat).
      { replace (seq 0 n) with (seq 0 q ++ q :: seq (S q) nc) in BS. 2: { replace n with (q + S nc)%nat by (unfold q; lia). rewrite seq_app. reflexivity. } rewrite filter_app, app_length in BS. cbn [filter] in BS. rewrite Lq in BS. cbn [negb length] in BS. unfold j. lia. }
      rewrite HR by (unfold j in *; lia). unfold obind at 1. destruct (coord_ok Z1 Z2 (S j) HI NZ) as (c & Ec & Nc & Lc & Ic); [unfold j in *; lia|]. rewrite Ec. unfold obind at 1.
      apply IH; [lia|rewrite SQ; cbn [filter]; rewrite Lq; exact Ed|cbn [length]; lia|]. intros i Hi. rewrite Eq1. destruct i as [|i]; cbn [nth].
      * rewrite Nat.add_0_r. split; [exact Nc|]. split; [exact Lc|]. intros _. eapply I_eq; [exact Ic|]. intros m _. unfold coord_poly. rewrite <- (VB q m) by (try exact Lq; unfold q; lia). rewrite VP. reflexivity.
      * replace (q + S i)%nat with (S q + i)%nat by lia. apply Ha. lia.
Qed.

(** linear variables *)
Lemma pc_map_len (f : nat -> Z) l i : (l <= i)%nat -> pc (map f (seq 0 l)) i = 0.
Proof. clear BS BD. intros H. apply pc_over. rewrite map_length, seq_length. exact H. Qed.
Lemma nf_pc_range a i : nf p a -> 0 <= pc a i < p.
Proof. clear BS BD. intros H. apply (nf_pc p Hp). exact H. Qed.
Lemma sub_mult_ok c acc a : 0 <= c < p -> nf p a -> (length a <= length acc)%nat -> length (sub_mult p c acc a) = length acc /\ sub_mult p c acc a == padd acc (pscal (- c) a).
Proof. clear BS BD.
  intros Hc Na La. pose proof (p2 p Hp). unfold sub_mult. split; [rewrite map_length, seq_length; reflexivity|]. intros i. rewrite pc_padd, pc_pscal. destruct (Nat.lt_ge_cases i (length acc)) as [A|A].
  - rewrite pc_map_seq by exact A. pose proof (nf_pc_range a i Na) as R. assert (W : wrap64 ((p - c) * pc a i) = (p - c) * pc a i). { apply Z.mod_small. change (2 ^ 64) with 18446744073709551616. nia. }
    rewrite W. rewrite eqp_mod by lia. rewrite (eqp_mod p ((p - c) * pc a i)) by lia. exists (pc a i). ring.
  - rewrite pc_map_len by exact A. rewrite !pc_over by lia. exists 0. ring.
Qed.
Lemma upd_nth l : forall i x, (i < length l)%nat -> exists r, upd l i x = Some r /\ length r = length l /\ forall j, nth j r 0 = if (j =? i)%nat then x else nth j l 0.
Proof. clear BS BD.
  induction l as [|y l IH]; intros i x Hi; cbn [length] in Hi; [lia|]. destruct i as [|i]; cbn [upd].
  - exists (x :: l). split; [reflexivity|]. split; [reflexivity|]. intros [|j]; reflexivity.
  - destruct (IH i x) as (r & E & L & N); [lia|]. rewrite E. exists (y :: r). split; [reflexivity|]. split; [cbn [length]; lia|]. intros [|j]; [reflexivity|]. cbn [nth]. rewrite N. reflexivity.
Qed.
Lemma add_at_ok a i c : (i < length a)%nat -> exists r, add_at p a i c = Some r /\ length r = length a /\ r == padd a (repeat 0 i ++ [c]).
Proof. clear BS BD.
  intros Hi. pose proof (p2 p Hp). unfold add_at. rewrite (nth_error_nth' a 0 Hi). unfold obind at 1. destruct (upd_nth a i ((nth i a 0 + c) mod p) Hi) as (r & E & L & N). exists r. split; [exact E|]. split; [exact L|]. intros j. rewrite pc_padd. unfold pc. rewrite N. destruct (Nat.eqb_spec j i) as [->|Ne].
  - rewrite app_nth2 by (rewrite repeat_length; lia). rewrite repeat_length, Nat.sub_diag. cbn [nth]. rewrite eqp_mod by lia. reflexivity.
  - assert (Z : nth j (repeat 0 i ++ [c]) 0 = 0). { destruct (Nat.lt_ge_cases j i) as [A|A]; [rewrite app_nth1 by (rewrite repeat_length; exact A); apply nth_repeat|]. rewrite nth_overflow; [reflexivity|]. rewrite app_length, repeat_length. cbn [length]. lia. } rewrite Z, Z.add_0_r. reflexivity.
Qed.
Notation Xv k := (cf [(1, xpow nv k 1)]).
Lemma uni_pscal c f m : uni_at nv n (pscal c f) m = c * uni_at nv n f m.
Proof. clear BS BD. rewrite !(uni_apply nv NV). apply apply_pscal. Qed.
Lemma uni_c0 c m : uni_at nv n (repeat 0 0 ++ [c]) m = c * cf [(1, mone nv)] m.
Proof. clear BS BD. rewrite (uni_apply nv NV). cbn [repeat app apply_at]. unfold X. rewrite xpow_0. ring. Qed.
Lemma uni_c1 c m : uni_at nv n (repeat 0 1 ++ [c]) m = c * Xv n m.
Proof. clear BS BD. rewrite (uni_apply nv NV). cbn [repeat app apply_at]. unfold X. ring. Qed.
Lemma uni_zeros k m : uni_at nv n (repeat 0 k) m =p 0.
Proof. clear BS BD.
  rewrite (uni_peq nv p NV (repeat 0 k) [] m); [reflexivity|]. intros i. rewrite pc_nil. unfold pc. rewrite nth_repeat. reflexivity.
Qed.
Lemma sub_mult_zero c k : sub_mult p c (repeat 0 k) (repeat 0 k) = repeat 0 k.
Proof. clear BS BD.
  pose proof (p2 p Hp). unfold sub_mult. rewrite repeat_length. apply (nth_ext _ _ 0 0); [rewrite map_length, seq_length, repeat_length; reflexivity|]. intros i Hi. rewrite map_length, seq_length in Hi. fold (pc (map (fun i0 => (wrap64 ((p - c) * pc (repeat 0 k) i0) mod p + pc (repeat 0 k) i0) mod p) (seq 0 k)) i). rewrite pc_map_seq by exact Hi. unfold pc. rewrite nth_repeat, Z.mul_0_r. unfold wrap64. rewrite !Zmod_0_l. reflexivity.
Qed.
Lemma linear_coord_ok ind eq cs : (ind < n)%nat -> linear_row nv p G ind eq -> length cs = n -> (forall q, (ind < q < n)%nat -> nf p (nth q cs []) /\ (length (nth q cs []) <= D)%nat /\ I (coord_poly nv q n (nth q cs []))) ->
  exists c, linear_coord p nv elim eq cs ind = Some c /\ nf p c /\ (length c <= D)%nat /\ I (coord_poly nv ind n c).
Proof. clear BS BD.
  intros Hind (Le & Re & Ze & Oe & Ie) Lc Hc. pose proof (p2 p Hp). unfold linear_coord. assert (Lel : length elim = S D) by apply ME. rewrite Lel.
  set (w := fun k => if (ind <? k)%nat then nth k eq 0 else 0).
  set (step := fun (acc : option (list Z)) (k : nat) => _).
  assert (F : forall k j acc, (1 <= j)%nat -> (j + k = n)%nat -> length acc = S D -> ((j <= S ind)%nat -> acc = repeat 0 (S D)) -> I (fun m => uni_at nv n acc m - sumn j (fun k => w k * Xv k m)) ->
    exists acc', fold_left step (seq j k) (Some acc) = Some acc' /\ length acc' = S D /\ I (fun m => uni_at nv n acc' m - sumn n (fun k => w k * Xv k m))).
  { induction k as [|k IH]; intros j acc Hj Ej La Za Ia.
    - exists acc. cbn [seq fold_left]. split; [reflexivity|]. split; [exact La|]. replace j with n in Ia by lia. exact Ia.
    - cbn [seq fold_left]. assert (Lj : (j < length eq)%nat) by lia. assert (Hr : 0 <= nth j eq 0 < p) by (apply Re; apply nth_In; exact Lj).
      assert (SE : step (Some acc) j = if nth j eq 0 =? 0 then Some acc else let a := if (j =? ind)%nat then acc else nth j cs [] in if (length acc <? length a)%nat then None else Some (sub_mult p (nth j eq 0) acc a)).
      { unfold step. unfold obind at 1. rewrite (nth_error_nth' eq 0 Lj). reflexivity. } rewrite SE. clear SE.
      destruct (Z.eqb_spec (nth j eq 0) 0) as [Z0|NZ].
      + apply IH; [lia|lia|exact La|intros A; apply Za; lia|]. eapply I_eq; [exact Ia|]. intros m _. cbn [sumn]. replace (w j) with 0 by (unfold w; rewrite Z0; destruct (ind <? j)%nat; reflexivity). exists 0. ring.
      + cbv zeta. destruct (Nat.eqb_spec j ind) as [->|Ne].
        * rewrite (proj2 (Nat.ltb_ge _ _)) by lia. rewrite (Za ltac:(lia)), sub_mult_zero. rewrite (Za ltac:(lia)) in Ia. apply IH; [lia|lia|apply repeat_length|reflexivity|]. eapply I_eq; [exact Ia|]. intros m _. cbn [sumn]. replace (w ind) with 0 by (unfold w; rewrite Nat.ltb_irrefl; reflexivity). exists 0. ring.
        * assert (Gj : (ind < j)%nat). { destruct (Nat.lt_ge_cases j ind) as [A|A]; [destruct NZ; apply Ze; exact A|lia]. } destruct (Hc j) as (Nc & Lcj & Ic); [lia|]. rewrite (proj2 (Nat.ltb_ge _ _)) by lia. destruct (sub_mult_ok (nth j eq 0) acc (nth j cs []) Hr Nc) as [Ls Es]; [lia|].
          apply IH; [lia|lia|lia|intros A; lia|]. eapply I_eq; [apply lspan_sub; [exact Ia|apply (lspan_scale nv p _ (nth j eq 0)); exact Ic]|]. intros m _. cbv beta. rewrite (uni_peq nv p NV _ _ m Es), (uni_padd nv NV), uni_pscal. cbn [sumn]. replace (w j) with (nth j eq 0) by (unfold w; rewrite (proj2 (Nat.ltb_lt _ _)) by exact Gj; reflexivity). unfold coord_poly. exists 0. ring. }
  assert (Hn : (2 <= nv)%nat) by lia. destruct (F (nv - 2)%nat 1%nat (repeat 0 (S D))) as (a & Ea & La & Ia); [lia|lia|apply repeat_length|reflexivity| |].
  { apply lspan_zero. intros m _. unfold pzero. rewrite uni_zeros. cbn [sumn]. unfold w. destruct (ind <? 0)%nat eqn:E; [apply Nat.ltb_lt in E; lia|]. exists 0. ring. }
  rewrite Ea. unfold obind at 1. rewrite (nth_error_nth' eq 0 (n := nv - 1)) by lia. unfold obind at 1. destruct (add_at_ok a 1 (nth (nv - 1) eq 0)) as (a1 & E1 & L1 & Q1); [lia|]. rewrite E1. unfold obind at 1. rewrite (nth_error_nth' eq 0 (n := nv)) by lia. unfold obind at 1. destruct (add_at_ok a1 0 (nth nv eq 0)) as (a0 & E0 & L0 & Q0); [lia|]. rewrite E0. unfold obind at 1.
  destruct (rem_ok (norm p a0) (nf_norm p Hp _)) as (r & Er & Nr & Lr & Ir). exists r. split; [exact Er|]. split; [exact Nr|]. split; [exact Lr|].
  eapply I_eq; [apply lspan_sub; [apply lspan_add; [exact Ie|exact Ia]|exact Ir]|]. intros m _. cbv beta. unfold coord_poly. rewrite (uni_peq nv p NV (norm p a0) a0 m) by (apply norm_peq; exact Hp). rewrite (uni_peq nv p NV a0 _ m Q0), (uni_padd nv NV), uni_c0. rewrite (uni_peq nv p NV a1 _ m Q1), (uni_padd nv NV), uni_c1.
  unfold linear_form. replace (sumn nv (fun k => nth k eq 0 * Xv k m)) with (Xv ind m + sumn n (fun k => w k * Xv k m) + nth n eq 0 * Xv n m).
  - exists 0. ring.
  - replace (sumn nv (fun k => nth k eq 0 * Xv k m)) with (sumn (S n) (fun k => nth k eq 0 * Xv k m)) by (f_equal; lia). change (sumn (S n) (fun k => nth k eq 0 * Xv k m)) with (sumn n (fun k => nth k eq 0 * Xv k m) + nth n eq 0 * Xv n m). f_equal. rewrite <- (sumn_delta n ind (fun k => Xv k m)) by exact Hind. rewrite <- sumn_add. apply sumn_ext. intros k Hk. unfold w. destruct (Nat.eqb_spec k ind) as [->|Ne]; [rewrite Nat.ltb_irrefl, Oe; ring|]. destruct (Nat.ltb_spec ind k) as [A|A]; [ring|]. rewrite (Ze k) by lia. ring.
Qed.
Lemma lupd_nth {A} (l : list A) : forall i x dflt j, (i < length l)%nat -> length (lupd l i x) = length l /\ nth j (lupd l i x) dflt = if (j =? i)%nat then x else nth j l dflt.
Proof. clear BS BD.
  induction l as [|y l IH]; intros i x dflt j Hi; cbn [length] in Hi; [lia|]. destruct i as [|i]; cbn [lupd]; [split; [reflexivity|]; destruct j; reflexivity|]. destruct (IH i x dflt (pred j)) as [L N]; [lia|]. split; [cbn [length]; lia|]. destruct j as [|j]; [reflexivity|]. cbn [nth]. exact N.
Qed.
Lemma linear_loop_ok : forall k eqs cs, (k <= n)%nat -> Forall2 (linear_row nv p G) (rev (filter lin (seq 0 k))) eqs -> length cs = n ->
  (forall q, (q < n)%nat -> nf p (nth q cs []) /\ (length (nth q cs []) <= D)%nat /\ (lin q = false \/ (k <= q)%nat -> I (coord_poly nv q n (nth q cs [])))) ->
  exists cs', linear_loop p nv elim lin k eqs cs = Some cs' /\ length cs' = n /\ forall q, (q < n)%nat -> nf p (nth q cs' []) /\ (length (nth q cs' []) <= D)%nat /\ I (coord_poly nv q n (nth q cs' [])).
Proof. clear BS BD.
  induction k as [|ind IH]; intros eqs cs Hk HE Lc Hc.
  - exists cs. split; [reflexivity|]. split; [exact Lc|]. intros q Hq. destruct (Hc q Hq) as (A & B & C). split; [exact A|]. split; [exact B|]. apply C. right. lia.
  - cbn [linear_loop]. rewrite seq_S, filter_app, rev_app_distr in HE. cbn [Nat.add filter] in HE. destruct (lin ind) eqn:Li.
    + cbn [rev app] in HE. inversion HE as [|? eq ? eqs' Hrow Hrest]; subst. destruct (linear_coord_ok ind eq cs) as (c & Ec & Nc & Lcc & Ic); [lia|exact Hrow|exact Lc| |].
      { intros q Hq. destruct (Hc q) as (A & B & C); [lia|]. split; [exact A|]. split; [exact B|]. apply C. right. lia. }
      rewrite Ec. unfold obind. apply IH; [lia|exact Hrest|rewrite (proj1 (lupd_nth cs ind c [] 0 ltac:(lia))); exact Lc|]. intros q Hq. rewrite (proj2 (lupd_nth cs ind c [] q ltac:(lia))). destruct (Nat.eqb_spec q ind) as [->|Ne]; [auto|]. destruct (Hc q Hq) as (A & B & C). split; [exact A|]. split; [exact B|]. intros [E|E]; apply C; [left; exact E|right; lia].
    + cbn [rev app] in HE. apply IH; [lia|exact HE|exact Lc|]. intros q Hq. destruct (Hc q Hq) as (A & B & C). split; [exact A|]. split; [exact B|]. intros [E|E]; [apply C; left; exact E|]. destruct (Nat.eq_dec q ind) as [->|Ne]; [apply C; left; exact Li|apply C; right; lia].
Qed.
End Elim.
End Core.
