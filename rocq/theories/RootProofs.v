(** Descartes' rule of signs in the form used by the solver. *)
From Coq Require Import ZArith List Arith Lia Reals Lra Bool.
From Verif Require Import PolySpec PolyProofs TaylorModel TaylorProofs DescProofs.
Import ListNotations.
Open Scope R_scope.

(** ** Integer and real sign changes *)
Lemma IZR_neg a b : (IZR a * IZR b < 0) <-> (a * b < 0)%Z.
Proof. rewrite <- mult_IZR. split; [apply lt_IZR|apply IZR_lt]. Qed.
Lemma chg_zchg l : forall s, chg (IZR s) (map IZR l) = zchg s l.
Proof.
  induction l as [|a l IH]; intros s; [reflexivity|]. cbn [map chg zchg].
  destruct (Rlt_dec (IZR s * IZR a) 0) as [H|H]; destruct (Z.ltb_spec (s * a) 0) as [K|K].
  - rewrite IH. reflexivity.
  - apply IZR_neg in H. lia.
  - exfalso. apply H, IZR_neg. assumption.
  - destruct (Req_EM_T (IZR a) 0) as [E|E]; destruct (Z.eqb_spec a 0) as [F|F].
    + apply IH.
    + apply eq_IZR in E. contradiction.
    + subst. contradiction.
    + apply IH.
Qed.
Lemma chg_variations l : chg 0 (map IZR l) = variations l.
Proof. rewrite <- zchg0. apply (chg_zchg l 0). Qed.

(** ** Sign at infinity *)
Fixpoint lastnz (s : R) (l : list R) : R :=
  match l with [] => s | a :: l' => if Req_EM_T a 0 then lastnz s l' else lastnz a l' end.
Lemma lastnz_zero l : forall s, Forall (fun a => a = 0) l -> lastnz s l = s.
Proof.
  induction l as [|a l IH]; intros s F; [reflexivity|]. cbn [lastnz]. pose proof (Forall_inv F) as E. cbv beta in E.
  destruct (Req_EM_T a 0); [|contradiction]. apply IH. exact (Forall_inv_tail F).
Qed.
Lemma lastnz_dep l : forall s t, lastnz s l <> lastnz t l -> Forall (fun a => a = 0) l.
Proof.
  induction l as [|a l IH]; intros s t H; [constructor|]. cbn [lastnz] in H. destruct (Req_EM_T a 0) as [E|E]; [|contradiction].
  constructor; [exact E|]. eapply IH. exact H.
Qed.
Lemma zero_eval l x : Forall (fun a => a = 0) l -> peval l x = 0.
Proof. induction 1 as [|a l E F IH]; [reflexivity|]. cbn [peval]. rewrite E, IH. ring. Qed.

Lemma at_infinity l : lastnz 0 l <> 0 -> exists M c, 0 < M /\ 0 < c /\ forall x, M <= x -> c <= lastnz 0 l * peval l x.
Proof.
  induction l as [|a l IH]; intros H; [cbn in H; contradiction|]. cbn [lastnz] in H |- *.
  destruct (Req_EM_T a 0) as [E|E].
  - destruct (IH H) as (M & c & HM & Hc & B). exists (M + 1), c. split; [lra|]. split; [assumption|]. intros x Hx. cbn [peval]. rewrite E.
    specialize (B x ltac:(lra)). set (b := lastnz 0 l) in *. set (q := peval l x) in *. nra.
  - destruct (Req_EM_T (lastnz 0 l) 0) as [Z0|Z0].
    + assert (F : Forall (fun a => a = 0) l) by (apply (lastnz_dep l a 0); rewrite Z0; assumption).
      rewrite (lastnz_zero l a F). exists 1, (a * a). split; [lra|]. split; [destruct (Rdichotomy a 0 E); nra|].
      intros x Hx. cbn [peval]. rewrite (zero_eval l x F). lra.
    + assert (E2 : lastnz a l = lastnz 0 l).
      { destruct (Req_EM_T (lastnz a l) (lastnz 0 l)) as [?|N]; [assumption|]. exfalso. apply Z0. apply lastnz_zero, (lastnz_dep l a 0 N). }
      rewrite E2. destruct (IH Z0) as (M & c & HM & Hc & B). set (b := lastnz 0 l) in *.
      exists (Rmax M (Rabs (b * a) / c + 1)), c. split; [apply Rlt_le_trans with M; [assumption|apply Rmax_l]|]. split; [assumption|].
      intros x Hx. cbn [peval]. specialize (B x (Rle_trans _ _ _ (Rmax_l _ _) Hx)).
      assert (X2 : Rabs (b * a) / c + 1 <= x) by (eapply Rle_trans; [apply Rmax_r|exact Hx]).
      assert (X3 : Rabs (b * a) + c <= x * c).
      { replace (Rabs (b * a) + c) with ((Rabs (b * a) / c + 1) * c) by (field; lra). apply Rmult_le_compat_r; lra. }
      assert (X4 : - Rabs (b * a) <= b * a) by (pose proof (Rle_abs (- (b * a))) as Q; rewrite Rabs_Ropp in Q; lra).
      assert (X5 : 0 <= x) by (assert (0 <= Rabs (b * a) / c) by (apply Rmult_le_pos; [apply Rabs_pos|left; apply Rinv_0_lt_compat; assumption]); lra).
      set (q := peval l x) in *. assert (x * c <= x * (b * q)) by (apply Rmult_le_compat_l; assumption). lra.
Qed.

(** ** Parity *)
Lemma chg_parity l : forall s, s <> 0 -> if Nat.even (chg s l) then 0 < s * lastnz s l else s * lastnz s l < 0.
Proof.
  induction l as [|a l IH]; intros s Hs.
  - cbn. destruct (Rdichotomy s 0 Hs); nra.
  - cbn [chg lastnz]. destruct (Rlt_dec (s * a) 0) as [H|H].
    + assert (Ha : a <> 0) by (intros ->; lra). destruct (Req_EM_T a 0); [contradiction|].
      specialize (IH a Ha). rewrite Nat.even_succ, <- Nat.negb_even.
      destruct (Nat.even (chg a l)); cbn [negb]; set (b := lastnz a l) in *;
        destruct (Rdichotomy a 0 Ha); destruct (Rdichotomy s 0 Hs); nra.
    + destruct (Req_EM_T a 0) as [E|E]; [apply IH; assumption|]. specialize (IH a E).
      assert (0 < s * a) by (destruct (Rdichotomy a 0 E); destruct (Rdichotomy s 0 Hs); nra).
      destruct (Nat.even (chg a l)); set (b := lastnz a l) in *; destruct (Rdichotomy a 0 E); destruct (Rdichotomy s 0 Hs); nra.
Qed.

Lemma odd_root a l : a <> 0 -> Nat.even (chg a l) = false -> exists x, 0 < x /\ peval (a :: l) x = 0.
Proof.
  intros Ha Hodd. pose proof (chg_parity l a Ha) as P. rewrite Hodd in P.
  assert (E : lastnz 0 (a :: l) = lastnz a l) by (cbn [lastnz]; destruct (Req_EM_T a 0); [contradiction|reflexivity]).
  assert (N : lastnz 0 (a :: l) <> 0) by (rewrite E; intros Q; rewrite Q in P; lra).
  destruct (at_infinity (a :: l) N) as (M & c & HM & Hc & B). rewrite E in B.
  specialize (B M (Rle_refl M)). set (b := lastnz a l) in *.
  assert (P0 : peval (a :: l) 0 = a) by (cbn [peval]; ring).
  destruct (IVT_cor (peval (a :: l)) 0 M (peval_cont _) ltac:(lra)) as (z & (Z1 & Z2) & Z3).
  - rewrite P0. set (v := peval (a :: l) M) in *. destruct (Rdichotomy a 0 Ha); nra.
  - exists z. split; [|assumption]. destruct (Req_EM_T z 0) as [->|]; [rewrite P0 in Z3; contradiction|lra].
Qed.
Lemma odd_root0 l : Nat.even (chg 0 l) = false -> exists x, 0 < x /\ peval l x = 0.
Proof.
  induction l as [|a l IH]; intros H; [discriminate|]. destruct (Req_EM_T a 0) as [->|Ha].
  - rewrite chg0_skip in H. destruct (IH H) as (x & X1 & X2). exists x. split; [assumption|]. cbn [peval]. rewrite X2. ring.
  - rewrite chg0_start in H by assumption. apply odd_root; assumption.
Qed.
Lemma chg0_nonzero l : (0 < chg 0 l)%nat -> exists a, In a l /\ a <> 0.
Proof.
  induction l as [|a l IH]; cbn [chg]; [lia|]. destruct (Rlt_dec (0 * a) 0); [lra|].
  destruct (Req_EM_T a 0); intros H; [destruct (IH H) as (b & ? & ?); exists b; cbn; auto|exists a; cbn; auto].
Qed.

(** ** The transformation x = 1/(y+1) *)
Lemma zeval_map_add p : forall q x, zeval (padd p q) x = zeval p x + zeval q x.
Proof.
  induction p as [|a p IH]; intros [|b q] x; cbn [padd]; rewrite ?zeval_nil; try ring.
  rewrite !zeval_cons, IH, plus_IZR. ring.
Qed.
Lemma zeval_tsh l x : zeval (tsh l) x = zeval l (x + 1).
Proof.
  induction l as [|a l IH]; [reflexivity|]. rewrite tsh_cons, !zeval_map_add, zeval_app, !zeval_cons, zeval_nil, IH. ring.
Qed.
Lemma zeval_rev u : forall z, z <> 0 -> zeval (rev u) z = z ^ (length u - 1) * zeval u (/ z).
Proof.
  induction u as [|a u IH]; intros z Hz; [cbn [rev length]; rewrite !zeval_nil; ring|].
  cbn [rev]. rewrite zeval_app, IH, rev_length by assumption. rewrite !zeval_cons, zeval_nil. cbn [length].
  replace (S (length u) - 1)%nat with (length u) by lia.
  destruct u as [|b u]; [cbn [length pow]; rewrite zeval_nil; ring|].
  cbn [length]. replace (S (length u) - 1)%nat with (length u) by lia. cbn [pow]. field. assumption.
Qed.
(** Numerator of u(1/(y+1)). *)
Lemma moebius_eval u y : -1 < y -> zeval (tsh (rev u)) y = (y + 1) ^ (length u - 1) * zeval u (/ (y + 1)).
Proof. intros H. rewrite zeval_tsh. apply zeval_rev. lra. Qed.

Lemma moebius_root u y : -1 < y -> root u (/ (y + 1)) <-> zeval (tsh (rev u)) y = 0.
Proof.
  intros H. rewrite moebius_eval by assumption. unfold root. pose proof (pow_lt (y + 1) (length u - 1) ltac:(lra)) as P. split; intros E.
  - rewrite E. ring.
  - apply Rmult_integral in E. destruct E; [lra|assumption].
Qed.

Definition dvar (u : list Z) : nat := variations (tsh (rev u)).

Lemma nonzero_some u : lead_ok u -> exists a, In a (map IZR (tsh (rev u))) /\ a <> 0.
Proof.
  intros [Hu Hl].
  assert (D : Forall (fun a => a = 0%Z) (tsh (rev u)) \/ exists a, In a (tsh (rev u)) /\ a <> 0%Z).
  { induction (tsh (rev u)) as [|a l IH]; [left; constructor|]. destruct (Z.eq_dec a 0) as [->|]; [|right; exists a; cbn; auto].
    destruct IH as [IH|(b & ? & ?)]; [left; constructor; auto|right; exists b; cbn; auto]. }
  destruct D as [D|(a & Ha & Hn)]; [|exists (IZR a); split; [apply in_map; assumption|apply not_0_IZR; assumption]].
  exfalso. (* the shifted polynomial would vanish identically *)
  assert (K : forall x, zev (rev u) x = 0%Z).
  { intros x. replace x with (x - 1 + 1)%Z by lia. rewrite <- tsh_eval. clear - D. induction D as [|a l E F IH]; [reflexivity|].
    cbn [zev]. rewrite E, IH. lia. }
  assert (F : Forall (fun a => a = 0%Z) (rev u)) by (apply zev_zero; intros; apply K).
  rewrite Forall_forall in F. apply Hl. apply F. rewrite <- in_rev.
  destruct (exists_last Hu) as (l & b & ->). rewrite last_last. apply in_or_app. right. left. reflexivity.
Qed.

(** At most as many roots in (0,1) as sign variations. *)
Theorem dvar_upper u l : lead_ok u -> increasing l -> (forall x, In x l -> 0 < x < 1 /\ root u x) -> (length l <= dvar u)%nat.
Proof.
  intros Hu Hi Hl. unfold dvar. rewrite <- chg_variations.
  replace (length l) with (length (map (fun x => / x - 1) (rev l))) by (rewrite map_length, rev_length; reflexivity).
  apply descartes_upper.
  - apply nonzero_some. assumption.
  - assert (Hl' : forall x, In x l -> 0 < x) by (intros x Hx; apply (Hl x Hx)). clear Hl.
    induction l as [|a l IH]; [exact I|]. cbn [rev]. rewrite map_app. cbn [map].
    specialize (IH (increasing_tail _ _ Hi) (fun x Hx => Hl' x (or_intror Hx))).
    assert (G : forall c, In c (map (fun x => / x - 1) (rev l)) -> c < / a - 1).
    { intros c Hc. apply in_map_iff in Hc. destruct Hc as (b & <- & Hb). apply in_rev in Hb.
      pose proof (increasing_gt _ _ Hi b Hb) as L. pose proof (Hl' a (or_introl eq_refl)).
      assert (/ b < / a); [|lra]. apply Rinv_lt_contravar; [|assumption]. apply Rmult_lt_0_compat; lra. }
    revert IH G. generalize (map (fun x => / x - 1) (rev l)) as m. induction m as [|b m IHm]; intros I1 G; [exact I|].
    destruct m as [|c m]; cbn [app increasing].
    + split; [apply G; left; reflexivity|exact I].
    + split; [apply I1|]. apply IHm; [apply (increasing_tail _ _ I1)|intros d Hd; apply G; right; assumption].
  - intros y Hy. apply in_map_iff in Hy. destruct Hy as (x & <- & Hx). apply in_rev in Hx. destruct (Hl x Hx) as [X1 X2].
    assert (1 < / x) by (rewrite <- Rinv_1; apply Rinv_lt_contravar; lra). split; [lra|].
    apply (moebius_root u (/ x - 1)); [lra|]. replace (/ (/ x - 1 + 1)) with x; [assumption|]. field. lra.
Qed.
Theorem dvar_zero u : lead_ok u -> dvar u = 0%nat -> forall x, 0 < x < 1 -> ~ root u x.
Proof.
  intros Hu H x Hx Hr. pose proof (dvar_upper u [x] Hu I) as B. cbn [length] in B.
  assert (1 <= dvar u)%nat by (apply B; intros y [<-|[]]; auto). lia.
Qed.
Lemma dvar_odd u : Nat.even (dvar u) = false -> exists x, 0 < x < 1 /\ root u x.
Proof.
  unfold dvar. rewrite <- chg_variations. intros H. destruct (odd_root0 _ H) as (y & Y1 & Y2). exists (/ (y + 1)). split.
  - split; [apply Rinv_0_lt_compat; lra|]. rewrite <- Rinv_1 at 2. apply Rinv_lt_contravar; lra.
  - apply (moebius_root u y); [lra|exact Y2].
Qed.
Theorem dvar_one u : lead_ok u -> dvar u = 1%nat -> exists x, 0 < x < 1 /\ root u x /\ forall y, 0 < y < 1 -> root u y -> y = x.
Proof.
  intros Hu H. destruct (dvar_odd u) as (x & X1 & X2); [rewrite H; reflexivity|]. exists x. split; [assumption|]. split; [assumption|].
  intros y Y1 Y2. destruct (Rtotal_order x y) as [L|[L|L]]; [|symmetry; exact L|]; exfalso.
  - pose proof (dvar_upper u [x; y] Hu) as B. rewrite H in B. cbn in B. assert (2 <= 1)%nat; [|lia].
    apply B; [auto|]. intros z [<-|[<-|[]]]; auto.
  - pose proof (dvar_upper u [y; x] Hu) as B. rewrite H in B. cbn in B. assert (2 <= 1)%nat; [|lia].
    apply B; [auto|]. intros z [<-|[<-|[]]]; auto.
Qed.
