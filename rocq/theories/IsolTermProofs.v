(** The isolation of a polynomial with simple roots ends and does not fail. *)
From Coq Require Import ZArith List Arith Lia Reals Lra Bool.
From Verif Require Import PolySpec IsolSpec ModInvModel TaylorModel DescModel IsolModel.
From Verif Require Import PolyProofs TaylorProofs DescProofs DescLoopProofs RootProofs IsolProofs IsolBisProofs IsolBoundProofs IsolSepProofs.
Import ListNotations.
Open Scope R_scope.

(** ** Counting with duplicate-free lists *)
Lemma sorted_exists l : NoDup l -> exists m, increasing m /\ length m = length l /\ forall x, In x m <-> In x l.
Proof.
  induction l as [|a l IH]; intros H; [exists []; repeat split; auto|]. inversion_clear H as [|? ? Ha Hl]. destruct (IH Hl) as (m & Hm & Lm & Em).
  assert (Hm' : ~ In a m) by (rewrite Em; assumption).
  assert (G : forall m, increasing m -> ~ In a m -> exists m', increasing m' /\ length m' = S (length m) /\ (forall x, In x m' <-> a = x \/ In x m) /\
     (forall b, (b < a) -> (match m with [] => True | c :: _ => b < c end) -> match m' with [] => True | c :: _ => b < c end)).
  { clear. induction m as [|c m IH]; intros Hm Ha.
    - exists [a]. repeat split; cbn; auto; tauto.
    - destruct (Rlt_dec a c) as [L|L].
      + exists (a :: c :: m). split; [split; assumption|]. split; [reflexivity|]. split; [reflexivity|]. intros b Hb _. assumption.
      + assert (c < a) by (assert (a <> c) by (intros ->; apply Ha; left; reflexivity); lra).
        destruct (IH (increasing_tail _ _ Hm)) as (m' & I' & L' & E' & H'); [intros K; apply Ha; right; assumption|].
        exists (c :: m'). split; [|split; [cbn; lia|split; [intros x; cbn [In]; rewrite E'; tauto|intros b _ K; exact K]]].
        assert (K : match m' with [] => True | d :: _ => c < d end) by (apply H'; [assumption|]; destruct m; [exact I|exact (proj1 Hm)]).
        destruct m'; [exact I|]. split; assumption. }
  destruct (G m Hm Hm') as (m' & I' & L' & E' & _). exists m'. split; [assumption|]. split; [cbn; lia|]. intros x. rewrite E', Em. reflexivity.
Qed.
Lemma descartes_nodup p l : (exists a, In a p /\ a <> 0) -> NoDup l -> (forall x, In x l -> 0 < x /\ peval p x = 0) -> (length l <= chg 0 p)%nat.
Proof.
  intros Hp Hl H. destruct (sorted_exists l Hl) as (m & Hm & Lm & Em). rewrite <- Lm. apply descartes_upper; [assumption|assumption|].
  intros x Hx. apply H, Em, Hx.
Qed.

(** Variations of p(x) and p(-x) together: at most the degree. *)
Fixpoint alt (e : R) (l : list R) : list R := match l with [] => [] | a :: l' => e * a :: alt (- e) l' end.
Lemma alt_eval l : forall e x, peval (alt e l) x = e * peval l (- x).
Proof. induction l as [|a l IH]; intros e x; cbn [alt peval]; [ring|]. rewrite IH. ring. Qed.
Lemma chg_cons s a l : a <> 0 -> chg s (a :: l) = if Rlt_dec (s * a) 0 then S (chg a l) else chg a l.
Proof. intros H. cbn [chg]. destruct (Rlt_dec (s * a) 0); [reflexivity|]. destruct (Req_EM_T a 0); [contradiction|reflexivity]. Qed.
Lemma chg_zero s l : chg s (0 :: l) = chg s l.
Proof. cbn [chg]. rewrite Rmult_0_r. destruct (Rlt_dec 0 0); [lra|]. destruct (Req_EM_T 0 0); [reflexivity|contradiction]. Qed.
Lemma alt_chg l : forall e, (e = 1 \/ e = -1) ->
  (forall s, s <> 0 -> (chg s l + chg (- e * s) (alt e l) <= length l)%nat) /\
  (forall s t, (chg s l + chg t (alt e l) <= S (length l))%nat).
Proof.
  induction l as [|a l IH]; intros e He; [split; intros; cbn; lia|]. cbn [alt length].
  destruct (IH (- e) ltac:(destruct He as [->| ->]; [right|left]; ring)) as [A B].
  destruct (Req_dec a 0) as [->|Na].
  - rewrite Rmult_0_r. split; [intros s Hs|intros s t]; rewrite !chg_zero; [|specialize (B s t); lia]. specialize (B s (- e * s)). lia.
  - assert (Nea : e * a <> 0) by (destruct He as [->| ->]; lra). specialize (A a Na). replace (- - e * a) with (e * a) in A by ring.
    split; [intros s Hs|intros s t]; rewrite !chg_cons by assumption.
    + replace (- e * s * (e * a)) with (- (s * a)) by (destruct He as [->| ->]; ring).
      destruct (Rlt_dec (s * a) 0); destruct (Rlt_dec (- (s * a)) 0); try lia. lra.
    + destruct (Rlt_dec (s * a) 0); destruct (Rlt_dec (t * (e * a)) 0); lia.
Qed.
Lemma alt_chg0 l : forall e, (e = 1 \/ e = -1) -> (chg 0 l + chg 0 (alt e l) <= length l - 1)%nat.
Proof.
  induction l as [|a l IH]; intros e He; [cbn; lia|]. cbn [alt length]. specialize (IH (- e) ltac:(destruct He as [->| ->]; [right|left]; ring)).
  destruct (Req_dec a 0) as [->|Na].
  - rewrite Rmult_0_r, !chg0_skip. lia.
  - assert (Nea : e * a <> 0) by (destruct He as [->| ->]; lra). rewrite !chg0_start by assumption.
    destruct (alt_chg l (- e) ltac:(destruct He as [->| ->]; [right|left]; ring)) as [A _]. specialize (A a Na). replace (- - e * a) with (e * a) in A by ring. lia.
Qed.

(** ** Roots and degree *)
Lemma factor P r : peval P r = 0 -> (1 <= length P)%nat -> exists Q, length P = S (length Q) /\ forall y, peval P y = (y - r) * peval Q y.
Proof.
  intros H0 HP. assert (G : forall p, (1 <= length p)%nat -> exists Q, fst (sdiv r p) = Q ++ [0]).
  { induction p as [|b [|b' p] IHp]; intros K; [cbn in K; lia| |].
    - exists []. reflexivity.
    - destruct IHp as [Q EQ]; [cbn; lia|]. remember (b' :: p) as p' eqn:Ep'. cbn [sdiv]. destruct (sdiv r p') as [m v]. cbn [fst] in *. subst m. exists (v :: Q). reflexivity. }
  destruct (G P HP) as [Q EQ]. exists Q. split.
  - pose proof (sdiv_len r P) as K. rewrite EQ, app_length in K. cbn in K. lia.
  - intros y. rewrite (sdiv_eval r P y), H0, EQ, peval_app. cbn [peval]. ring.
Qed.
Lemma roots_le L : forall P, (exists y, peval P y <> 0) -> NoDup L -> (forall r, In r L -> peval P r = 0) -> (length L < length P)%nat.
Proof.
  induction L as [|r L IH]; intros P (y & Hy) Hn Hr.
  - destruct P; [cbn in Hy; lra|cbn; lia].
  - assert (1 <= length P)%nat by (destruct P; [cbn in Hy; lra|cbn; lia]).
    destruct (factor P r) as (Q & LQ & EQ); [apply Hr; left; reflexivity|assumption|]. inversion_clear Hn as [|? ? Nr HL].
    cbn [length]. rewrite LQ. apply -> Nat.succ_lt_mono. apply IH; [|assumption|].
    + exists y. intros N. apply Hy. rewrite EQ, N. ring.
    + intros s Hs. assert (K : peval P s = 0) by (apply Hr; right; assumption). rewrite EQ in K. apply Rmult_integral in K. destruct K as [K|K]; [|assumption].
      exfalso. apply Nr. replace r with s by lra. assumption.
Qed.

(** [P] has as many distinct real roots as its degree. *)
Definition tr (P : list R) (L : list R) : Prop := NoDup L /\ length P = S (length L) /\ forall r, In r L -> peval P r = 0.
Lemma tr_all P L r : tr P L -> (exists y, peval P y <> 0) -> peval P r = 0 -> In r L.
Proof.
  intros (H1 & H2 & H3) Hy H0. destruct (in_dec Req_EM_T r L) as [|N]; [assumption|exfalso].
  pose proof (roots_le (r :: L) P Hy) as K. assert (length (r :: L) < length P)%nat; [|cbn in *; lia]. apply K.
  - constructor; assumption.
  - intros s [<-|Hs]; auto.
Qed.
Definition notin (rs : list R) (x : R) : bool := if in_dec Req_EM_T x rs then false else true.
Lemma notin_iff rs x : notin rs x = true <-> ~ In x rs.
Proof. unfold notin. destruct (in_dec Req_EM_T x rs); split; intros; try tauto; discriminate. Qed.
Lemma filter_notin L rs : NoDup L -> NoDup rs -> incl rs L -> (length (filter (notin rs) L) + length rs)%nat = length L.
Proof.
  intros HL Hr Hi. assert (ND : NoDup (filter (notin rs) L ++ rs)).
  { assert (G : NoDup (filter (notin rs) L)) by (apply NoDup_filter; assumption).
    assert (D : forall x, In x (filter (notin rs) L) -> ~ In x rs) by (intros x Hx; apply filter_In in Hx; destruct Hx as [_ Hx]; apply notin_iff; assumption).
    revert G D. generalize (filter (notin rs) L). intros l. induction l as [|a l IH]; intros G D; [assumption|]. cbn [app]. inversion_clear G. constructor.
    - rewrite in_app_iff. intros [K|K]; [contradiction|]. apply (D a); [left; reflexivity|assumption].
    - apply IH; [assumption|]. intros x Hx. apply D. right. assumption. }
  rewrite <- app_length. apply Nat.le_antisymm; apply NoDup_incl_length; try assumption.
  - intros x Hx. apply in_app_iff in Hx. destruct Hx as [Hx|Hx]; [apply filter_In in Hx; tauto|apply Hi; assumption].
  - intros x Hx. apply in_app_iff. destruct (in_dec Req_EM_T x rs) as [K|K]; [right; assumption|left]. apply filter_In. split; [assumption|]. apply notin_iff. assumption.
Qed.
Lemma tr_quot P P' rs L : tr P L -> (exists y, peval P y <> 0) -> (forall y, peval P y = prodr rs y * peval P' y) -> length P = (length rs + length P')%nat -> NoDup rs ->
  tr P' (filter (notin rs) L).
Proof.
  intros HT Hy HE HLen Hr. pose proof HT as (H1 & H2 & H3).
  assert (Hi : incl rs L). { intros r Hr'. apply (tr_all P L r HT Hy). rewrite HE, (prodr_zero rs r Hr'). ring. }
  pose proof (filter_notin L rs H1 Hr Hi) as K. split; [apply NoDup_filter; assumption|]. split; [lia|].
  intros r Hr'. apply filter_In in Hr'. destruct Hr' as [Ha Hb]. apply notin_iff in Hb. specialize (H3 r Ha). rewrite HE in H3.
  apply Rmult_integral in H3. destruct H3 as [H3|H3]; [|assumption]. exfalso. revert H3. apply prodr_nz. intros s Hs ->. contradiction.
Qed.

(** ** Number of roots in an interval *)
Definition inb (a b x : R) : bool := if Rlt_dec a x then if Rlt_dec x b then true else false else false.
Lemma inb_iff a b x : inb a b x = true <-> a < x < b.
Proof. unfold inb. destruct (Rlt_dec a x); destruct (Rlt_dec x b); split; intros; try lra; try discriminate; reflexivity. Qed.
Definition cnt (L : list R) (a b : R) : nat := length (filter (inb a b) L).
Lemma cnt_split L a m b : a < m < b -> (forall r, In r L -> r <> m) -> cnt L a b = (cnt L a m + cnt L m b)%nat.
Proof.
  intros H Hm. unfold cnt. induction L as [|r L IH]; [reflexivity|]. cbn [filter]. specialize (IH ltac:(intros; apply Hm; right; assumption)).
  assert (Nr : r <> m) by (apply Hm; left; reflexivity).
  destruct (inb a b r) eqn:E1; destruct (inb a m r) eqn:E2; destruct (inb m b r) eqn:E3; cbn [length]; try lia; exfalso;
  rewrite <- ?not_true_iff_false, ?inb_iff in E1; rewrite <- ?not_true_iff_false, ?inb_iff in E2; rewrite <- ?not_true_iff_false, ?inb_iff in E3; lra.
Qed.
Lemma cnt_le L a b : (cnt L a b <= length L)%nat.
Proof. unfold cnt. induction L as [|r L IH]; [cbn; lia|]. cbn [filter length]. destruct (inb a b r); cbn [length]; lia. Qed.
Lemma cnt_pos L a b : (1 <= cnt L a b)%nat -> exists r, In r L /\ a < r < b.
Proof.
  unfold cnt. destruct (filter (inb a b) L) as [|r l] eqn:E; [cbn; lia|]. intros _. exists r. assert (K : In r (filter (inb a b) L)) by (rewrite E; left; reflexivity).
  apply filter_In in K. rewrite inb_iff in K. assumption.
Qed.
Lemma cnt_all L a b : (forall r, In r L -> a < r < b) -> cnt L a b = length L.
Proof.
  intros H. unfold cnt. induction L as [|r L IH]; [reflexivity|]. cbn [filter]. assert (K : inb a b r = true) by (apply inb_iff, H; left; reflexivity). rewrite K. cbn [length].
  rewrite IH; [reflexivity|]. intros; apply H; right; assumption.
Qed.
Lemma filter_len {A} (f : A -> bool) l : (length (filter f l) + length (filter (fun x => negb (f x)) l))%nat = length l.
Proof. induction l as [|a l IH]; [reflexivity|]. cbn [filter]. destruct (f a); cbn [negb length]; lia. Qed.

Lemma moebius_ne u y : y + 1 <> 0 -> zeval (tsh (rev u)) y = (y + 1) ^ (length u - 1) * zeval u (/ (y + 1)).
Proof. intros H. rewrite zeval_tsh. apply zeval_rev. assumption. Qed.

Lemma NoDup_map_inj {A B} (g : A -> B) l : (forall x y, In x l -> In y l -> g x = g y -> x = y) -> NoDup l -> NoDup (map g l).
Proof.
  induction l as [|a l IH]; intros H N; [constructor|]. inversion_clear N as [|? ? Na Nl]. cbn [map]. constructor.
  - intros K. apply in_map_iff in K. destruct K as (b & Eb & Hb). apply Na. rewrite <- (H b a); [assumption|right; assumption|left; reflexivity|assumption].
  - apply IH; [|assumption]. intros x y Hx Hy. apply H; right; assumption.
Qed.

(** When all roots are real and simple, the count of variations is exact. *)
Lemma dvar_exact P L a w u : 0 < w -> inv P a w u -> tr P L -> peval P a <> 0 -> peval P (a + w) <> 0 -> (dvar u <= cnt L a (a + w))%nat.
Proof.
  intros Hw I (HN & HL & HR) Ha Hb. pose proof I as (LU & UL & _).
  set (out := filter (fun x => negb (inb a (a + w) x)) L).
  assert (Lo : (cnt L a (a + w) + length out)%nat = length L) by (apply filter_len).
  set (q := map IZR (tsh (rev u))).
  assert (Lq : length q = length P) by (unfold q; rewrite map_length, tsh_length, rev_length; assumption).
  pose proof (alt_chg0 q 1 (or_introl eq_refl)) as A. 
  assert (V : dvar u = chg 0 q) by (unfold dvar, q; rewrite chg_variations; reflexivity).
  assert (K : (length out <= chg 0 (alt 1 q))%nat); [|lia].
  assert (Ho : forall r, In r out -> (r < a \/ a + w < r) /\ peval P r = 0).
  { intros r Hr. apply filter_In in Hr. destruct Hr as [H1 H2]. apply negb_true_iff in H2. rewrite <- not_true_iff_false, inb_iff in H2. specialize (HR r H1).
    split; [|assumption]. assert (r <> a) by congruence. assert (r <> a + w) by congruence. lra. }
  set (g := fun r => 1 - / ((r - a) / w)).
  rewrite <- (map_length g out). apply descartes_nodup.
  - destruct (nonzero_some u UL) as (c & Hc & Nc). fold q in Hc. clear - Hc Nc. assert (G : forall l e, (e = 1 \/ e = -1) -> In c l -> exists d, In d (alt e l) /\ d <> 0).
    { induction l as [|b l IH]; intros e He H; [destruct H|]. destruct H as [->|H]; cbn [alt].
      - exists (e * c). split; [left; reflexivity|]. destruct He as [->| ->]; lra.
      - destruct (IH (- e)) as (d & Hd & Nd); [destruct He as [->| ->]; [right|left]; ring|assumption|]. exists d. split; [right; assumption|assumption]. }
    apply (G q 1); auto.
  - apply NoDup_map_inj; [|unfold out; apply NoDup_filter; assumption]. intros x y Hx Hy E. destruct (Ho x Hx) as [Hx' _]. destruct (Ho y Hy) as [Hy' _].
    unfold g in E. assert (E' : / ((x - a) / w) = / ((y - a) / w)) by lra. 
    assert (E2 : (x - a) / w = (y - a) / w) by (rewrite <- (Rinv_inv ((x - a) / w)), E', Rinv_inv; reflexivity).
    assert (E3 : x - a = y - a). { replace (x - a) with ((x - a) / w * w) by (field; lra). rewrite E2. field. lra. } lra.
  - intros y Hy. apply in_map_iff in Hy. destruct Hy as (r & <- & Hr). destruct (Ho r Hr) as [Hr' Zr]. unfold g.
    apply (to_root P a w u r Hw I) in Zr. set (t := (r - a) / w) in *.
    assert (Ht : t < 0 \/ 1 < t).
    { unfold t. destruct Hr' as [H|H]; [left; rewrite (lt_div 0 (r - a) w Hw); lra|right; rewrite (div_lt 1 (r - a) w Hw); lra]. }
    assert (It : / t < 0 \/ 0 < / t < 1).
    { destruct Ht as [H|H]; [left; apply Rinv_lt_0_compat; assumption|right]. split; [apply Rinv_0_lt_compat; lra|]. rewrite <- Rinv_1. apply Rinv_lt_contravar; lra. }
    split; [lra|]. rewrite alt_eval, Rmult_1_l. change (peval q (- (1 - / t))) with (zeval (tsh (rev u)) (- (1 - / t))).
    replace (- (1 - / t)) with (/ t - 1) by ring. rewrite moebius_ne; [|lra]. replace (/ t - 1 + 1) with (/ t) by ring. rewrite Rinv_inv. unfold root in Zr. rewrite Zr. ring.
Qed.
Lemma dvar_lower P L a w u : 0 < w -> inv P a w u -> tr P L -> (cnt L a (a + w) <= dvar u)%nat.
Proof.
  intros Hw I (HN & HL & HR). pose proof I as (_ & UL & _). unfold cnt. set (l := filter (inb a (a + w)) L).
  set (g := fun r => (r - a) / w). rewrite <- (map_length g l).
  destruct (sorted_exists (map g l)) as (m & Hm & Lm & Em).
  { apply NoDup_map_inj; [|apply NoDup_filter; assumption]. intros x y _ _ E. unfold g in E. assert (E3 : x - a = y - a). { replace (x - a) with ((x - a) / w * w) by (field; lra). rewrite E. field. lra. } lra. }
  rewrite <- Lm. apply dvar_upper; [assumption|assumption|]. intros x Hx. apply Em in Hx. apply in_map_iff in Hx. destruct Hx as (r & <- & Hr).
  apply filter_In in Hr. destruct Hr as [H1 H2]. apply inb_iff in H2. unfold g. split; [apply to_unit; assumption|]. apply (to_root P a w u r Hw I). apply HR. assumption.
Qed.
Lemma one_sign P L a w u : 0 < w -> inv P a w u -> tr P L -> peval P a <> 0 -> peval P (a + w) <> 0 -> cnt L a (a + w) = 1%nat ->
  peval P a * peval P (a + w) < 0.
Proof.
  intros Hw I T Ha Hb C. pose proof (dvar_exact P L a w u Hw I T Ha Hb). pose proof (dvar_lower P L a w u Hw I T).
  pose proof I as (_ & UL & l & Hl & E).
  assert (E0 : zeval u 0 = l * peval P a) by (rewrite E; f_equal; f_equal; ring).
  assert (E1 : zeval u 1 = l * peval P (a + w)) by (rewrite E; f_equal; f_equal; ring).
  assert (K : zeval u 0 * zeval u 1 < 0).
  { apply dvar_one_sign; [assumption| | |lia].
    - intros N. rewrite zeval_0, N in E0. symmetry in E0. apply Rmult_integral in E0. tauto.
    - intros N. rewrite N in E1. symmetry in E1. apply Rmult_integral in E1. tauto. }
  rewrite E0, E1 in K. replace (l * peval P a * (l * peval P (a + w))) with (l * l * (peval P a * peval P (a + w))) in K by ring.
  destruct (Rlt_le_dec (peval P a * peval P (a + w)) 0) as [|G]; [assumption|exfalso]. assert (0 <= l * l) by (apply Rle_0_sqr). 
  assert (0 <= l * l * (peval P a * peval P (a + w))) by (apply Rmult_le_pos; assumption). lra.
Qed.

(** ** One step of the recursion *)
Definition sep_test (u : list Z) : Prop := zeval u 0 * zeval u (/ 2) < 0 /\ zeval u (/ 2) * zeval u 1 < 0.
Definition go_on (fuel : nat) (u2 : list Z) (f1 : flags) (c : Z) (k : nat) (half : bool) :=
  let? r := bisect fuel u2 f1 (2 * c) (S k) in
  let '(u, f, oldk, out1) := r in
  let out := out1 ++ half_entry c k half in
  match oldk with
  | None => Some (u, f, None, out)
  | Some ok =>
      let? u := taylorshift1_dac u (length u - 1) (tbl f) (pwx f) in
      let? u := if (S k <? ok)%nat then rescale_normalize u (Z.of_nat ok - Z.of_nat (S k)) else Some u in
      let? r := bisect fuel u f (2 * c + 1) (S k) in
      let '(u, f, oldk, out2) := r in
      Some (u, f, oldk, out ++ out2)
  end.
Lemma bisect_step P u f c k mr : node_ok P c k u f -> manage_half u f = Some mr ->
  exists P1 u1 f1 half, mr = (u1, f1, half, sgn_onehalf u1) /\ (2 <= length P1)%nat /\ inv P1 (IZR c * wd k) (wd k) u1 /\ flags_ok f1 (length P1 - 1) /\
    half_fact P P1 (IZR c * wd k + wd k / 2) half /\ zeval u1 (/ 2) <> 0 /\
    ((exists ok out, (forall fuel, bisect (S fuel) u f c k = Some (u1, f1, ok, out)) /\ (ok = None \/ ok = Some k)) \/
     ((2 <= dvar u1)%nat /\ ~ (dvar u1 = 2%nat /\ sep_test u1) /\
      exists u2, node_ok P1 (2 * c) (S k) u2 f1 /\ forall fuel, bisect (S fuel) u f c k = go_on fuel u2 f1 c k half)).
Proof.
  intros (HP & I & F & Ha & Hb) Em. pose proof (wd_pos k) as Hw. pose proof I as (Lu & UL & _).
  destruct (manage_half_ok P _ _ u f mr HP Hw I F Em) as (P1 & u1 & f1 & half & -> & HP1 & I1 & F1 & HF & Hh).
  exists P1, u1, f1, half. repeat (split; [assumption || reflexivity|]).
  assert (U0 : zeval u 0 <> 0). { intros N. apply Ha. apply (inv_root _ _ _ _ _ I) in N. rewrite Rmult_0_r, Rplus_0_r in N. assumption. }
  pose proof I1 as (L1 & UL1 & _).
  pose proof (u1_0 P P1 c k u1 half I1 HF Ha) as V0. pose proof (u1_1 P P1 c k u1 half I1 HF Hb) as V1.
  assert (N0 : nth 0 u1 0%Z <> 0%Z) by (intros N; apply V0; rewrite zeval_0, N; reflexivity).
  assert (Ld : length u1 = S (length u1 - 1)) by lia.
  pose proof (is_zero_root_ok u c k UL U0) as E0.
  assert (E1 : sgn_variations_is_zero u1 (length u1 - 1) = Some (Nat.min 1 (variations u1))).
  { apply is_zero_ok; [assumption|lia|apply (lead_ok_nth u1 (length u1 - 1) Ld); assumption]. }
  assert (E2 : descartes u1 (length u1 - 1) (tbl f1) (pwx f1) = Some (Nat.min 3 (dvar u1))).
  { apply descartes_flags; [assumption|lia|rewrite L1; assumption|assumption]. }
  pose proof (getz_0 u1 UL1) as E3.
  destruct (rescale_inv _ _ _ _ (-1) I1) as (u2 & E4 & I2).
  destruct (Nat.min 1 (variations u1) =? 0)%nat eqn:V.
  { left. eexists. eexists. split; [intros fuel; cbn [bisect]; rewrite E0; cbn [obind]; rewrite Em; cbn [obind]; rewrite E1; cbn [obind app]; rewrite V; reflexivity|auto]. }
  destruct (Nat.min 3 (dvar u1) =? 0)%nat eqn:D0.
  { left. eexists. eexists. split; [intros fuel; cbn [bisect]; rewrite E0; cbn [obind]; rewrite Em; cbn [obind]; rewrite E1; cbn [obind app]; rewrite V, E2; cbn [obind]; rewrite E3; cbn [obind]; rewrite D0; reflexivity|auto]. }
  destruct (Nat.min 3 (dvar u1) =? 1)%nat eqn:D1.
  { left. eexists. eexists. split; [intros fuel; cbn [bisect]; rewrite E0; cbn [obind]; rewrite Em; cbn [obind]; rewrite E1; cbn [obind app]; rewrite V, E2; cbn [obind]; rewrite E3; cbn [obind]; rewrite D0, D1; reflexivity|auto]. }
  destruct ((Nat.min 3 (dvar u1) =? 2)%nat && ((Z.sgn (nth 0 u1 0%Z) * sgn_onehalf u1 <? 0)%Z && (sign_at_one u1 * sgn_onehalf u1 <=? 0)%Z)) eqn:T2.
  { left. eexists. eexists. split; [intros fuel; cbn [bisect]; rewrite E0; cbn [obind]; rewrite Em; cbn [obind]; rewrite E1; cbn [obind app]; rewrite V, E2; cbn [obind]; rewrite E3; cbn [obind]; rewrite D0, D1, T2; reflexivity|auto]. }
  right. apply Nat.eqb_neq in D0 as D0'. apply Nat.eqb_neq in D1 as D1'. split; [lia|]. split.
  { intros (D2 & S1 & S2). assert (Nu : u1 <> []) by exact (proj1 UL1). apply not_true_iff_false in T2. apply T2. rewrite D2. cbn [Nat.min Nat.eqb andb]. apply andb_true_iff. split.
    - apply (sgn_onehalf_sign u1 _ Nu). rewrite <- zeval_0. assumption.
    - rewrite sgn_at_one. apply Z.leb_le. apply Z.lt_le_incl. apply Z.ltb_lt. apply (sgn_onehalf_sign u1 _ Nu). rewrite <- zeval_1. lra. }
  exists u2. split.
  - rewrite p2_m1 in I2. unfold node_ok. rewrite child_left, wd_S. split; [assumption|]. split; [exact I2|]. split; [assumption|].
    split; [eapply half_fact_nz; eassumption|exact (proj1 HF)].
  - intros fuel; cbn [bisect]; rewrite E0; cbn [obind]; rewrite Em; cbn [obind]; rewrite E1; cbn [obind app]; rewrite V, E2; cbn [obind]; rewrite E3; cbn [obind]; rewrite D0, D1, T2, E4. reflexivity.
Qed.

(** ** Two roots on one side of the middle, or one on each side and the sign test succeeds *)
Lemma sep_from_counts P1 L a w u1 u2 : 0 < w -> inv P1 a w u1 -> inv P1 a (w / 2) u2 -> tr P1 L ->
  peval P1 a <> 0 -> peval P1 (a + w / 2) <> 0 -> peval P1 (a + w) <> 0 ->
  cnt L a (a + w / 2) = 1%nat -> cnt L (a + w / 2) (a + w) = 1%nat -> sep_test u1.
Proof.
  intros Hw I1 I2 T Ha Hm Hb C1 C2.
  assert (S1 : peval P1 a * peval P1 (a + w / 2) < 0) by (apply (one_sign P1 L a (w / 2) u2); try assumption; lra).
  pose proof (tsh_inv _ _ _ _ I2) as I3.
  assert (S2 : peval P1 (a + w / 2) * peval P1 (a + w / 2 + w / 2) < 0).
  { apply (one_sign P1 L (a + w / 2) (w / 2) (tsh u2)); try assumption; try lra; replace (a + w / 2 + w / 2) with (a + w) by field; assumption. }
  replace (a + w / 2 + w / 2) with (a + w) in S2 by field.
  destruct I1 as (_ & _ & l & Hl & E). unfold sep_test. rewrite !E.
  replace (a + w * 0) with a by ring. replace (a + w * / 2) with (a + w / 2) by reflexivity. replace (a + w * 1) with (a + w) by ring.
  assert (L2 : 0 < l * l) by (apply (Rsqr_pos_lt l Hl)). set (x := peval P1 a) in *. set (y := peval P1 (a + w / 2)) in *. set (z := peval P1 (a + w)) in *.
  split.
  - replace (l * x * (l * y)) with (l * l * (x * y)) by ring. rewrite <- (Rmult_0_r (l * l)). apply Rmult_lt_compat_l; assumption.
  - replace (l * y * (l * z)) with (l * l * (y * z)) by ring. rewrite <- (Rmult_0_r (l * l)). apply Rmult_lt_compat_l; assumption.
Qed.

Lemma half_rs P P1 m half : half_fact P P1 m half -> (forall y, peval P y = prodr (half_list half m) y * peval P1 y) /\ length P = (length (half_list half m) + length P1)%nat /\ NoDup (half_list half m).
Proof.
  intros [_ H]. destruct half; cbn [half_list prodr length].
  - destruct H as [H1 H2]. split; [intros y; rewrite H2; ring|]. split; [lia|]. repeat constructor. intros [].
  - subst. split; [intros y; ring|]. split; [lia|constructor].
Qed.

(** Two roots in the interval are not both divided out. *)
Lemma undivided : forall fuel P L u f c k u' f' k' out, node_ok P c k u f -> bisect fuel u f c k = Some (u', f', Some k', out) -> tr P L ->
  (2 <= cnt L (IZR c * wd k) (IZR c * wd k + wd k))%nat ->
  forall P', inv P' (IZR c * wd k + wd k - wd k') (wd k') u' -> exists r, IZR c * wd k < r < IZR c * wd k + wd k /\ peval P' r = 0.
Proof.
  induction fuel as [|fuel IH]; intros P L u f c k u' f' k' out HN H HT HC P' I'; [discriminate|].
  pose proof HN as (HP & I & F & Ha & Hb). pose proof (wd_pos k) as Hw.
  destruct (manage_half u f) as [mr|] eqn:Em.
  2:{ exfalso. cbn [bisect] in H. pose proof I as (_ & UL & _). assert (U0 : zeval u 0 <> 0). { intros N. apply Ha. apply (inv_root _ _ _ _ _ I) in N. rewrite Rmult_0_r, Rplus_0_r in N. assumption. }
      rewrite (is_zero_root_ok u c k UL U0) in H. cbn [obind] in H. rewrite Em in H. discriminate. }
  destruct (bisect_step P u f c k mr HN Em) as (P1 & u1 & f1 & half & -> & HP1 & I1 & F1 & HF & Hh & Cases).
  set (a := IZR c * wd k) in *. 
  destruct (half_rs _ _ _ _ HF) as (Hr1 & Hr2 & Hr3). set (m := a + wd k / 2) in *.
  assert (Hy : exists y, peval P y <> 0) by eauto.
  pose proof (tr_quot _ _ _ _ HT Hy Hr1 Hr2 Hr3) as T1. set (L1 := filter (notin (half_list half m)) L) in *.
  pose proof HF as [Hm _].
  assert (L1m : forall r, In r L1 -> r <> m). { intros r Hr ->. destruct T1 as (_ & _ & T1). apply Hm. apply T1. assumption. }
  assert (HC1 : (1 <= cnt L1 a (a + wd k))%nat).
  { assert (K : (cnt L a (a + wd k) <= cnt L1 a (a + wd k) + 1)%nat).
    { unfold cnt, L1. assert (G : forall l, NoDup l -> (length (filter (inb a (a + wd k)) l) <= length (filter (inb a (a + wd k)) (filter (notin (half_list half m)) l)) + (if in_dec Req_EM_T m l then 1 else 0))%nat).
      { clear. induction l as [|r l IH]; intros Hn; [cbn; lia|]. inversion_clear Hn as [|? ? Nr Hl]. specialize (IH Hl).
        cbn [filter]. destruct (notin (half_list half m) r) eqn:En.
        - cbn [filter]. destruct (inb a (a + wd k) r); cbn [length]; destruct (in_dec Req_EM_T m (r :: l)) as [K|K]; destruct (in_dec Req_EM_T m l) as [K'|K']; try lia; exfalso; apply K; right; assumption.
        - assert (r = m). { rewrite <- not_true_iff_false, notin_iff in En. destruct half; cbn [half_list In] in En; [|tauto]. destruct (Req_EM_T r m); [assumption|]. exfalso. apply En. intros [K|[]]. auto. }
          subst r. destruct (in_dec Req_EM_T m l); [contradiction|]. destruct (in_dec Req_EM_T m (m :: l)) as [K|K]; [|exfalso; apply K; left; reflexivity].
          destruct (inb a (a + wd k) m); cbn [length]; lia. }
      specialize (G L (proj1 HT)). destruct (in_dec Req_EM_T m L); lia. }
    lia. }
  destruct Cases as [(ok & out0 & E & Ek)|(D2 & NS & u2 & N2 & E)].
  - rewrite E in H. injection H as <- <- -> _. destruct Ek as [Ek|Ek]; [discriminate|]. injection Ek as ->.
    destruct (cnt_pos _ _ _ HC1) as (r & Hr & Hi). exists r. split; [assumption|].
    replace (a + wd k - wd k) with a in I' by ring. apply (to_root P' a (wd k) u1 r Hw I'). apply (to_root P1 a (wd k) u1 r Hw I1). apply T1. assumption.
  - rewrite E in H. unfold go_on in H. destruct (bisect fuel u2 f1 (2 * c) (S k)) as [[[[u3 f3] ok1] out1]|] eqn:B1; [|discriminate]. cbn [obind] in H.
    destruct ok1 as [ok1|]; [|discriminate].
    pose proof (bisect_sound _ _ _ _ _ _ _ N2 B1) as G1. unfold result_ok in G1. rewrite child_left, wd_S in G1. fold a in G1. fold m in G1.
    destruct G1 as (P2 & rs1 & R1 & F3 & Hk & I3 & C1). pose proof (r_len2 _ _ _ _ _ _ R1) as HP2.
    destruct (let? v := taylorshift1_dac u3 (length u3 - 1) (tbl f3) (pwx f3) in
              if (S k <? ok1)%nat then rescale_normalize v (Z.of_nat ok1 - Z.of_nat (S k)) else Some v) as [v|] eqn:Ev.
    2:{ destruct (to_right P2 m u3 f3 (S k) ok1 _ HP2 Hk F3 I3 Ev) as (v & Kv & _). discriminate. }
    destruct (to_right P2 m u3 f3 (S k) ok1 _ HP2 Hk F3 I3 Ev) as (v' & Kv & I4). injection Kv as <-.
    destruct (taylorshift1_dac u3 (length u3 - 1) (tbl f3) (pwx f3)) as [v0|]; [|discriminate]. cbn [obind] in Ev, H. rewrite Ev in H. cbn [obind] in H.
    destruct (bisect fuel v f3 (2 * c + 1) (S k)) as [[[[u5 f5] ok2] out2]|] eqn:B2; [|discriminate]. cbn [obind] in H. injection H as -> -> -> _.
    assert (O2 : node_ok P2 (2 * c + 1) (S k) v f3).
    { unfold node_ok. rewrite child_right, wd_S. fold a m. split; [assumption|]. split; [rewrite wd_S in I4; exact I4|]. split; [assumption|].
      split; [apply (P2_m P P1 P2 c k half rs1 out1 HF R1)|]. replace (m + wd k / 2) with (a + wd k) by (unfold m; field). apply (P2_b P P1 P2 c k half rs1 out1 HF Hb R1). }
    pose proof (bisect_sound _ _ _ _ _ _ _ O2 B2) as G2. unfold result_ok in G2. rewrite child_right, wd_S in G2. fold a m in G2.
    replace (m + wd k / 2) with (a + wd k) in G2 by (unfold m; field).
    destruct G2 as (P3 & rs2 & R2 & F5 & Hk2 & I5 & C2).
    assert (Eq' : forall y, peval P' y = 0 <-> peval P3 y = 0).
    { intros y. rewrite (inv_root' P' _ _ _ y (Rgt_not_eq _ _ (wd_pos k')) I'), (inv_root' P3 _ _ _ y (Rgt_not_eq _ _ (wd_pos k')) I5). tauto. }
    assert (Hy1 : exists y, peval P1 y <> 0) by eauto.
    pose proof (tr_quot _ _ _ _ T1 Hy1 (r_prod _ _ _ _ _ _ R1) (r_len _ _ _ _ _ _ R1) (r_nodup _ _ _ _ _ _ R1)) as T2. set (L2 := filter (notin rs1) L1) in *.
    assert (Hb1 : peval P1 (a + wd k) <> 0) by (eapply half_fact_nz; eassumption).
    assert (Ha1 : peval P1 a <> 0) by (eapply half_fact_nz; eassumption).
    pose proof (dvar_exact P1 L1 a (wd k) u1 Hw I1 T1 Ha1 Hb1) as DE.
    assert (Hspl : cnt L1 a (a + wd k) = (cnt L1 a m + cnt L1 m (a + wd k))%nat) by (apply cnt_split; [unfold m; lra|assumption]).
    destruct (Nat.le_gt_cases 2 (cnt L1 a m)) as [CL|CL].
    + assert (CL' : (2 <= cnt L1 (IZR (2 * c) * wd (S k)) (IZR (2 * c) * wd (S k) + wd (S k)))%nat) by (rewrite child_left, wd_S; exact CL).
      assert (I3' : inv P2 (IZR (2 * c) * wd (S k) + wd (S k) - wd ok1) (wd ok1) u3) by (rewrite child_left, wd_S; exact I3).
      destruct (IH P1 L1 u2 f1 (2 * c)%Z (S k) u3 f3 ok1 out1 N2 B1 T1 CL' P2 I3') as (r & Hr & Zr). rewrite child_left, wd_S in Hr. fold a m in Hr.
      exists r. split; [unfold m in Hr; lra|]. apply Eq'. rewrite (r_prod _ _ _ _ _ _ R2) in Zr. apply Rmult_integral in Zr. destruct Zr as [Zr|Zr]; [|assumption].
      exfalso. revert Zr. apply prodr_nz. intros s Hs. pose proof (res_rs _ _ _ _ _ _ R2 s Hs). lra.
    + destruct (Nat.le_gt_cases 2 (cnt L1 m (a + wd k))) as [CR|CR].
      * assert (CR2 : cnt L2 m (a + wd k) = cnt L1 m (a + wd k)).
        { unfold cnt, L2. clear - R1. f_equal. induction L1 as [|r l IHl]; [reflexivity|]. cbn [filter]. destruct (notin rs1 r) eqn:En; cbn [filter].
          - destruct (inb m (a + wd k) r); [f_equal|]; assumption.
          - rewrite IHl. rewrite <- not_true_iff_false, notin_iff in En. destruct (in_dec Req_EM_T r rs1) as [K|K]; [|contradiction]. pose proof (res_rs _ _ _ _ _ _ R1 r K) as K'.
            destruct (inb m (a + wd k) r) eqn:Ei; [|reflexivity]. apply inb_iff in Ei. lra. }
        assert (CR' : (2 <= cnt L2 (IZR (2 * c + 1) * wd (S k)) (IZR (2 * c + 1) * wd (S k) + wd (S k)))%nat).
        { rewrite child_right, wd_S. fold a m. replace (m + wd k / 2) with (a + wd k) by (unfold m; field). lia. }
        assert (I5' : inv P3 (IZR (2 * c + 1) * wd (S k) + wd (S k) - wd k') (wd k') u').
        { rewrite child_right, wd_S. fold a m. replace (m + wd k / 2) with (a + wd k) by (unfold m; field). assumption. }
        destruct (IH P2 L2 v f3 (2 * c + 1)%Z (S k) u' f' k' out2 O2 B2 T2 CR' P3 I5') as (r & Hr & Zr). rewrite child_right, wd_S in Hr. fold a m in Hr.
        replace (m + wd k / 2) with (a + wd k) in Hr by (unfold m; field). exists r. split; [unfold m in Hr; lra|]. apply Eq'. assumption.
      * exfalso. pose proof N2 as (_ & I2 & _). rewrite child_left, wd_S in I2. fold a in I2. apply NS. split; [lia|].
        apply (sep_from_counts P1 L1 a (wd k) u1 u2); try assumption; fold m; lia.
Qed.

(** ** More fuel does not change the result *)
Lemma bisect_mono : forall f1 f2 u f c k r, (f1 <= f2)%nat -> bisect f1 u f c k = Some r -> bisect f2 u f c k = Some r.
Proof.
  induction f1 as [|f1 IH]; intros f2 u f c k r Hf H; [discriminate|]. destruct f2 as [|f2]; [lia|]. cbn [bisect] in *.
  destruct (is_zero_root u c k) as [[u1 out0]|]; [|discriminate]. cbn [obind] in *.
  destruct (manage_half u1 f) as [[[[u2 f0] half] sh]|]; [|discriminate]. cbn [obind] in *.
  destruct (sgn_variations_is_zero u2 (length u2 - 1)) as [nz|]; [|discriminate]. cbn [obind] in *. destruct (nz =? 0)%nat; [assumption|].
  destruct (descartes u2 (length u2 - 1) (tbl f0) (pwx f0)) as [nb|]; [|discriminate]. cbn [obind] in *.
  destruct (getz u2 0) as [a|]; [|discriminate]. cbn [obind] in *.
  destruct (nb =? 0)%nat; [assumption|]. destruct (nb =? 1)%nat; [assumption|].
  match goal with |- (if ?b then _ else _) = _ => destruct b; [assumption|] end.
  destruct (rescale_normalize u2 (-1)) as [u3|]; [|discriminate]. cbn [obind] in *.
  destruct (bisect f1 u3 f0 (2 * c) (S k)) as [[[[u4 f4] ok] out1]|] eqn:B1; [|discriminate]. cbn [obind] in H.
  rewrite (IH f2 _ _ _ _ _ ltac:(lia) B1). cbn [obind]. destruct ok as [ok|]; [|assumption].
  destruct (taylorshift1_dac u4 (length u4 - 1) (tbl f4) (pwx f4)) as [u5|]; [|discriminate]. cbn [obind] in *.
  match type of H with obind ?X _ = _ => destruct X as [u6|]; [|discriminate] end. cbn [obind] in *.
  destruct (bisect f1 u6 f4 (2 * c + 1) (S k)) as [r2|] eqn:B2; [|discriminate]. rewrite (IH f2 _ _ _ _ _ ltac:(lia) B2). assumption.
Qed.

(** The middle is not the root of a linear polynomial. *)
Definition good (P : list R) (m : R) : Prop := ~ (length P = 2%nat /\ peval P m = 0).

Lemma manage_half_some P a w u f : (2 <= length P)%nat -> 0 < w -> inv P a w u -> flags_ok f (length P - 1) -> simpleR P -> good P (a + w / 2) ->
  exists mr, manage_half u f = Some mr.
Proof.
  intros HP Hw I F HS HG. unfold manage_half. pose proof I as (L & [Nu _] & _).
  destruct (Z.eqb_spec (sgn_onehalf u) 0) as [Z0|Z0]; [|eauto].
  apply (sgn_onehalf_zero u Nu) in Z0. destruct (numer_quotient_ok P a w u HP I Z0 ltac:(lra)) as (q & Q & Eq & LQ & IQ & EP).
  rewrite Eq. cbn [obind]. pose proof IQ as (Lq & [Nq _] & _).
  destruct (simple_quot P Q (a + w / 2) LQ EP HS) as [_ NQ].
  destruct (Z.eqb_spec (sgn_onehalf q) 0) as [Z1|Z1].
  - exfalso. apply (sgn_onehalf_zero q Nq) in Z1. apply NQ. apply (inv_root Q a w q (/ 2) IQ) in Z1. exact Z1.
  - assert (2 <= length Q)%nat. { destruct (Nat.le_gt_cases 2 (length Q)) as [|K]; [assumption|exfalso]. apply HG. split; [lia|]. apply (inv_root P a w u (/ 2) I) in Z0. exact Z0. }
    destruct (update_flags_ok (length q - 1) f) as (f' & E' & _); [lia|eapply flags_ok_le; [exact F|lia]|]. rewrite E'. cbn [obind]. eauto.
Qed.

Lemma res_eq P a b P' rs out : res P a b P' rs out -> length rs = 0%nat -> P' = P.
Proof.
  intros R H. destruct rs; [|discriminate]. symmetry. apply peval_inj; [exact (r_len _ _ _ _ _ _ R)|]. intros x. rewrite (r_prod _ _ _ _ _ _ R). cbn [prodr]. ring.
Qed.

Definition in_unit (c : Z) (k : nat) : Prop := 0 <= IZR c * wd k /\ IZR c * wd k + wd k <= 1.

Theorem bisect_total : forall n P c k u f, (length P <= n)%nat -> node_ok P c k u f -> simpleR P -> in_unit c k -> good P (IZR c * wd k + wd k / 2) ->
  exists fuel r, bisect fuel u f c k = Some r.
Proof.
  induction n as [n IHn] using lt_wf_ind. intros P c k u f Hn HN HS HU HG.
  destruct (separation P HS (proj1 HN)) as (K & HK).
  remember (K - k)%nat as t eqn:Et. revert c k u f HN HU HG Et. induction t as [t IHt] using lt_wf_ind. intros c k u f HN HU HG Et.
  pose proof HN as (HP & I & F & Ha & Hb). pose proof (wd_pos k) as Hw.
  destruct (manage_half_some P _ _ u f HP Hw I F HS HG) as (mr & Em).
  destruct (bisect_step P u f c k mr HN Em) as (P1 & u1 & f1 & half & -> & HP1 & I1 & F1 & HF & Hh & Cases).
  destruct Cases as [(ok & out0 & E & _)|(D2 & NS & u2 & N2 & Go)]; [exists 1%nat; eauto|].
  set (a := IZR c * wd k) in *. set (m := a + wd k / 2) in *.
  destruct (half_rs _ _ _ _ HF) as (Hr1 & Hr2 & Hr3). pose proof HF as [Hm HF'].
  assert (HS1 : simpleR P1) by (apply (simple_quots (half_list half m) P P1); assumption).
  assert (Hb1 : peval P1 (a + wd k) <> 0) by (eapply half_fact_nz; eassumption).
  assert (Ha1 : peval P1 a <> 0) by (eapply half_fact_nz; eassumption).
  assert (UL : in_unit (2 * c) (S k)). { unfold in_unit in *. rewrite child_left, wd_S. fold a in HU |- *. lra. }
  assert (UR : in_unit (2 * c + 1) (S k)). { unfold in_unit in *. rewrite child_right, wd_S. fold a in HU |- *. lra. }
  assert (L3 : (3 <= length P1)%nat).
  { destruct (Nat.le_gt_cases 3 (length P1)) as [|Q]; [assumption|exfalso]. pose proof I1 as (Lu1 & _).
    pose proof (alt_chg0 (map IZR (tsh (rev u1))) 1 (or_introl eq_refl)) as A. unfold dvar in D2. rewrite <- chg_variations in D2. rewrite map_length, tsh_length, rev_length in A. lia. }
  assert (Kk : half = false -> (k < K)%nat).
  { intros ->. subst P1. destruct (Nat.lt_ge_cases k K) as [|G]; [assumption|exfalso]. assert (dvar u1 <= 1)%nat; [|lia]. apply (HK k a); [assumption|unfold in_unit in HU; fold a in HU; lra|assumption]. }
  (* a call on a child ends *)
  assert (Rec : forall Q c' v g, Q = P \/ (length Q < length P)%nat -> (Q = P -> half = false) -> node_ok Q c' (S k) v g -> simpleR Q -> in_unit c' (S k) ->
     good Q (IZR c' * wd (S k) + wd (S k) / 2) -> exists fuel r, bisect fuel v g c' (S k) = Some r).
  { intros Q c' v g [->|Hlt] Hh' N' S' U' G'.
    - specialize (Kk (Hh' eq_refl)). apply (IHt (K - S k)%nat); try assumption; [lia|reflexivity].
    - apply (IHn (length Q)) with (P := Q); try assumption; lia. }
  assert (HlenP1 : P1 = P \/ (length P1 < length P)%nat) by (destruct half; [right; lia|left; assumption]).
  destruct (Rec P1 (2 * c)%Z u2 f1) as (fu1 & r1 & B1); try assumption.
  { intros ->. destruct half; [|reflexivity]. lia. }
  { unfold good. lia. }
  destruct r1 as [[[u3 f3] ok1] out1].
  pose proof (bisect_sound _ _ _ _ _ _ _ N2 B1) as G1. unfold result_ok in G1. rewrite child_left, wd_S in G1. fold a in G1. fold m in G1.
  destruct G1 as (P2 & rs1 & R1 & F3 & C1). pose proof (r_len2 _ _ _ _ _ _ R1) as HP2.
  destruct ok1 as [ok1|].
  2:{ exists (S fu1). eexists. rewrite Go. unfold go_on. rewrite B1. cbn [obind]. reflexivity. }
  destruct C1 as (Hk & I3 & C1).
  destruct (let? v := taylorshift1_dac u3 (length u3 - 1) (tbl f3) (pwx f3) in
            if (S k <? ok1)%nat then rescale_normalize v (Z.of_nat ok1 - Z.of_nat (S k)) else Some v) as [v|] eqn:Ev.
  2:{ destruct (to_right P2 m u3 f3 (S k) ok1 _ HP2 Hk F3 I3 Ev) as (v & Kv & _). discriminate. }
  destruct (to_right P2 m u3 f3 (S k) ok1 _ HP2 Hk F3 I3 Ev) as (v' & Kv & I4). injection Kv as <-.
  assert (O2 : node_ok P2 (2 * c + 1) (S k) v f3).
  { unfold node_ok. rewrite child_right, wd_S. fold a m. split; [assumption|]. split; [rewrite wd_S in I4; exact I4|]. split; [assumption|].
    split; [apply (P2_m P P1 P2 c k half rs1 out1 HF R1)|]. replace (m + wd k / 2) with (a + wd k) by (unfold m; field). apply (P2_b P P1 P2 c k half rs1 out1 HF Hb R1). }
  assert (HS2 : simpleR P2) by (apply (simple_quots rs1 P1 P2); [exact (r_len _ _ _ _ _ _ R1)|exact (r_prod _ _ _ _ _ _ R1)|assumption]).
  assert (HL2 : P2 = P1 \/ (length P2 < length P1)%nat).
  { destruct rs1 as [|x rs1]; [left; apply (res_eq _ _ _ _ _ _ R1); reflexivity|right]. pose proof (r_len _ _ _ _ _ _ R1) as K1. cbn [length] in K1. lia. }
  assert (HGR : good P2 (IZR (2 * c + 1) * wd (S k) + wd (S k) / 2)).
  { rewrite child_right, wd_S. fold a m. set (m' := m + wd k / 2 / 2). intros [G1 G2].
    assert (Nm : ~ In m' rs1) by (intros K1; pose proof (res_rs _ _ _ _ _ _ R1 m' K1); unfold m' in *; lra).
    assert (T1 : tr P1 (m' :: rs1)).
    { split; [constructor; [assumption|exact (r_nodup _ _ _ _ _ _ R1)]|]. split; [rewrite (r_len _ _ _ _ _ _ R1), G1; cbn [length]; lia|].
      intros r [<-|Hr]; rewrite (r_prod _ _ _ _ _ _ R1); [rewrite G2; ring|rewrite (prodr_zero rs1 r Hr); ring]. }
    assert (CL : cnt (m' :: rs1) a m = length rs1).
    { unfold cnt. cbn [filter]. replace (inb a m m') with false by (symmetry; rewrite <- not_true_iff_false, inb_iff; unfold m'; lra).
      apply (cnt_all rs1 a m). apply (res_rs _ _ _ _ _ _ R1). }
    assert (CR : cnt (m' :: rs1) m (a + wd k) = 1%nat).
    { unfold cnt. cbn [filter]. replace (inb m (a + wd k) m') with true by (symmetry; rewrite inb_iff; unfold m', m; lra).
      cbn [length]. f_equal. fold (cnt rs1 m (a + wd k)). destruct (Nat.eq_dec (cnt rs1 m (a + wd k)) 0) as [|N]; [assumption|exfalso].
      destruct (cnt_pos rs1 m (a + wd k) ltac:(lia)) as (r & Hr & Hi). pose proof (res_rs _ _ _ _ _ _ R1 r Hr). lra. }
    assert (Csp : cnt (m' :: rs1) a (a + wd k) = (length rs1 + 1)%nat).
    { rewrite (cnt_split _ a m (a + wd k)); [rewrite CL, CR; reflexivity|unfold m; lra|]. intros r [<-|Hr]; [unfold m'; lra|]. pose proof (res_rs _ _ _ _ _ _ R1 r Hr). lra. }
    pose proof (dvar_exact P1 _ a (wd k) u1 Hw I1 T1 Ha1 Hb1) as DE. rewrite Csp in DE.
    destruct (Nat.le_gt_cases 2 (length rs1)) as [Q|Q].
    - assert (CL' : (2 <= cnt (m' :: rs1) (IZR (2 * c) * wd (S k)) (IZR (2 * c) * wd (S k) + wd (S k)))%nat) by (rewrite child_left, wd_S; fold a m; lia).
      assert (I3' : inv P2 (IZR (2 * c) * wd (S k) + wd (S k) - wd ok1) (wd ok1) u3) by (rewrite child_left, wd_S; exact I3).
      destruct (undivided fu1 P1 _ u2 f1 (2 * c)%Z (S k) u3 f3 ok1 out1 N2 B1 T1 CL' P2 I3') as (r & Hr & Zr). rewrite child_left, wd_S in Hr. fold a m in Hr.
      assert (K1 : (length [r; m'] < length P2)%nat).
      { apply roots_le.
        - exists m. apply (P2_m P P1 P2 c k half rs1 out1 HF R1).
        - constructor; [intros [E|[]]; unfold m' in E; lra|repeat constructor; intros []].
        - intros s [<-|[<-|[]]]; assumption. }
      cbn in K1. lia.
    - assert (length rs1 = 1%nat) as Q1 by lia. apply NS. split; [lia|]. pose proof N2 as (_ & I2 & _). rewrite child_left, wd_S in I2. fold a in I2.
      apply (sep_from_counts P1 (m' :: rs1) a (wd k) u1 u2); try assumption; fold m; lia. }
  destruct (Rec P2 (2 * c + 1)%Z v f3) as (fu2 & [[[u5 f5] ok2] out2] & B2); try assumption.
  { destruct HL2 as [->|HL2]; [assumption|]. right. destruct HlenP1 as [->|HH]; lia. }
  { intros ->. destruct half; [|reflexivity]. exfalso. destruct HL2 as [E|E]; [rewrite <- E in Hr2; cbn [half_list length] in Hr2; lia|]. cbn [half_list length] in Hr2. lia. }
  exists (S (Nat.max fu1 fu2)). eexists. rewrite Go. unfold go_on. rewrite (bisect_mono fu1 (Nat.max fu1 fu2) _ _ _ _ _ ltac:(lia) B1). cbn [obind].
  destruct (taylorshift1_dac u3 (length u3 - 1) (tbl f3) (pwx f3)) as [v0|]; [|discriminate]. cbn [obind] in Ev |- *. rewrite Ev. cbn [obind].
  rewrite (bisect_mono fu2 (Nat.max fu1 fu2) _ _ _ _ _ ltac:(lia) B2). reflexivity.
Qed.

(** ** The whole isolation *)
Lemma pder_from_pd p : forall n, map IZR (pder_from n p) = pd (IZR n) (map IZR p).
Proof. induction p as [|a p IH]; intros n; cbn [pder_from pd map]; [reflexivity|]. rewrite IH, mult_IZR, plus_IZR. reflexivity. Qed.
Lemma pder_pderR p : map IZR (pder p) = pderR (map IZR p).
Proof. destruct p as [|a p]; [reflexivity|]. cbn [pder pderR map]. apply pder_from_pd. Qed.
Lemma simple_simpleR p : simple_roots p <-> simpleR (map IZR p).
Proof. unfold simple_roots, simpleR, root, zeval. rewrite pder_pderR. reflexivity. Qed.

(** Simplicity after an affine change of variable. *)
Lemma simple_inv P a w u : w <> 0 -> inv P a w u -> simpleR P -> simple_roots u.
Proof.
  intros Hw I HS. apply simple_simpleR. destruct (inv_coeffs _ _ _ _ I) as (l & Hl & E). rewrite E.
  assert (D1 : forall p b x, peval (pderR (tay p b)) x = peval (pderR p) (b + x)).
  { induction p as [|c p IH]; intros b x; [reflexivity|]. cbn [tay]. rewrite pderR_mulx, pderR_cons, IH, tay_eval. ring. }
  assert (D2 : forall p l x, peval (pderR (sc l w p)) x = l * w * peval (pderR p) (w * x)).
  { induction p as [|c p IH]; intros l' x; cbn [sc]; [cbn; ring|]. rewrite !pderR_cons, IH, sc_eval. ring. }
  intros x Hx. rewrite sc_eval, tay_eval in Hx. rewrite D2, D1. apply Rmult_integral in Hx. destruct Hx as [Hx|Hx]; [contradiction|].
  apply Rmult_integral_contrapositive. split; [apply Rmult_integral_contrapositive; auto|]. apply HS. assumption.
Qed.

Lemma isolate_side_total neg u : lead_ok u -> nth 0 u 0%Z <> 0%Z -> simple_roots u -> exists fuel, forall fuel', (fuel <= fuel')%nat -> exists l, isolate_side fuel' neg u = Some l.
Proof.
  intros Hl H0 HS. unfold isolate_side. destruct (Nat.eqb_spec (length u - 1) 0) as [D|D]; [exists 0%nat; eauto|].
  destruct (start u Hl ltac:(lia) H0) as (b & v & f & Eb & Ev & Ef & Nd & Iv & Nr). rewrite Eb. cbn [obind]. rewrite Ev. cbn [obind]. rewrite Ef. cbn [obind].
  pose proof (p2_pos b) as Pb.
  assert (HSv : simpleR (map IZR v)). { apply simple_simpleR. apply (simple_inv (map IZR u) 0 (p2 b) v); [lra|assumption|]. apply simple_simpleR. assumption. }
  destruct (bisect_total (length (map IZR v)) (map IZR v) 0 0 v f) as (fuel & r & B).
  - lia.
  - assumption.
  - assumption.
  - unfold in_unit, wd. cbn [pow]. rewrite Rinv_1. lra.
  - unfold wd. cbn [pow]. rewrite Rinv_1, Rmult_0_l, Rplus_0_l. intros [G1 G2]. rewrite map_length in G1. pose proof Iv as (Lv & _). rewrite map_length in Lv.
    destruct u as [|a0 [|lead [|]]]; try (cbn in *; lia). 
    assert (a0 = 0%Z); [|cbn in H0; contradiction]. apply (bound_linear a0 lead b).
    + destruct Hl as [_ Hl]. exact Hl.
    + exact Eb.
    + assert (G3 : root v (1 / 2)) by exact G2. apply (inv_root _ _ _ _ _ Iv) in G3. rewrite Rplus_0_l in G3. unfold root, zeval. rewrite <- G3. f_equal. field.
  - exists fuel. intros fuel' Hf. rewrite (bisect_mono fuel fuel' _ _ _ _ _ Hf B). cbn [obind]. destruct r as [[[u' f'] ok] out]. eauto.
Qed.

Theorem isolate_total p : lead_ok p -> simple_roots p -> exists fuel, forall fuel', (fuel <= fuel')%nat -> exists l, isolate fuel' p = Some l.
Proof.
  intros Hl HS. unfold isolate. rewrite (getz_0 p Hl). cbn [obind].
  assert (G : exists u zero, (if (nth 0 p 0 =? 0)%Z then (let? a1 := getz p 1 in if (a1 =? 0)%Z then None else Some (tl p, [{| numer := 0; ik := 0; isexact := true |}])) else Some (p, [])) = Some (u, zero)
     /\ lead_ok u /\ nth 0 u 0%Z <> 0%Z /\ simple_roots u).
  { destruct (Z.eqb_spec (nth 0 p 0%Z) 0) as [E|E].
    - destruct p as [|p0 [|p1 p]]; [destruct Hl as [[] _]; reflexivity| |].
      + cbn in E. subst p0. destruct Hl as [_ []]. reflexivity.
      + cbn [nth] in E. subst p0. cbn [getz nth_error obind tl].
        destruct (simple_quot (map IZR (0%Z :: p1 :: p)) (map IZR (p1 :: p)) 0) as [S1 S2].
        * reflexivity.
        * intros y. cbn [map peval]. ring.
        * apply simple_simpleR. assumption.
        * destruct (Z.eqb_spec p1 0) as [->|N]; [exfalso; apply S2; cbn [map peval]; ring|]. eexists. eexists. split; [reflexivity|].
          split; [destruct Hl as [_ Hl]; split; [discriminate|exact Hl]|]. split; [exact N|]. apply simple_simpleR. assumption.
    - eexists. eexists. split; [reflexivity|]. auto. }
  destruct G as (u & zero & E & Lu & U0 & Su). rewrite E. cbn [obind].
  destruct (isolate_side_total false u Lu U0 Su) as (fp & Hp).
  destruct (isolate_side_total true (negate_odd false u)) as (fn & Hn).
  - apply negate_odd_lead. assumption.
  - rewrite negate_odd_0. assumption.
  - apply (simple_inv (map IZR u) 0 (-1)); [lra| |apply simple_simpleR; assumption].
    split; [rewrite map_length; apply negate_odd_length|]. split; [apply negate_odd_lead; assumption|]. exists 1. split; [lra|]. intros x. rewrite negate_odd_eval. unfold zeval. rewrite Rmult_1_l. f_equal. ring.
  - exists (Nat.max fp fn). intros fuel' Hf. destruct (Hp fuel' ltac:(lia)) as (lp & ->). cbn [obind]. destruct (Hn fuel' ltac:(lia)) as (ln & ->). cbn [obind]. eauto.
Qed.

(** More fuel does not change the answer. *)
Lemma isolate_side_mono fuel fuel' neg u l : (fuel <= fuel')%nat -> isolate_side fuel neg u = Some l -> isolate_side fuel' neg u = Some l.
Proof.
  intros Hf. unfold isolate_side. destruct (length u - 1 =? 0)%nat; [auto|]. destruct (bound_roots u (length u - 1)) as [b|]; [cbn [obind]|discriminate].
  destruct (rescale_normalize u b) as [v|]; [cbn [obind]|discriminate]. destruct (init_flags (length u - 1)) as [f|]; [cbn [obind]|discriminate].
  destruct (bisect fuel v f 0 0) as [r|] eqn:B; [cbn [obind]|discriminate]. rewrite (bisect_mono fuel fuel' _ _ _ _ _ Hf B). auto.
Qed.
Lemma isolate_mono fuel fuel' p l : (fuel <= fuel')%nat -> isolate fuel p = Some l -> isolate fuel' p = Some l.
Proof.
  intros Hf. unfold isolate. destruct (getz p 0) as [a0|]; [cbn [obind]|discriminate].
  match goal with |- obind ?X _ = _ -> _ => destruct X as [[u zero]|]; [cbn [obind]|discriminate] end.
  destruct (isolate_side fuel false u) as [lp|] eqn:E1; [cbn [obind]|discriminate]. destruct (isolate_side fuel true (negate_odd false u)) as [ln|] eqn:E2; [cbn [obind]|discriminate].
  rewrite (isolate_side_mono _ _ _ _ _ Hf E1). cbn [obind]. rewrite (isolate_side_mono _ _ _ _ _ Hf E2). auto.
Qed.
