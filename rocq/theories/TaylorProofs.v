(** The naive and the divide-and-conquer Taylor shifts compute P(x+1). *)
From Coq Require Import ZArith List Arith Lia Reals.
From Verif Require Import ModInvModel TaylorModel PolySpec PolyProofs.
Import ListNotations.
Open Scope Z_scope.

(** ** Evaluation at integers determines the coefficients *)
Lemma zev_app p q x : zev (p ++ q) x = zev p x + x ^ Z.of_nat (length p) * zev q x.
Proof.
  induction p as [|a p IH]; [cbn [app zev length]; rewrite Z.pow_0_r; lia|].
  cbn [app zev length]. rewrite IH, Nat2Z.inj_succ, Z.pow_succ_r by lia. ring.
Qed.
Lemma zev_map_mul c p x : zev (map (Z.mul c) p) x = c * zev p x.
Proof. induction p as [|a p IH]; cbn [map zev]; [ring|]. rewrite IH. ring. Qed.
Lemma zev_map_mulr c p x : zev (map (fun a => a * c) p) x = c * zev p x.
Proof. induction p as [|a p IH]; cbn [map zev]; [ring|]. rewrite IH. ring. Qed.
Lemma zev_padd p : forall q x, zev (padd p q) x = zev p x + zev q x.
Proof. induction p as [|a p IH]; intros [|b q] x; cbn [padd zev]; try ring. rewrite IH. ring. Qed.
Lemma padd_length p : forall q, length (padd p q) = max (length p) (length q).
Proof. induction p as [|a p IH]; intros [|b q]; cbn [padd length]; try lia. rewrite IH. lia. Qed.
Lemma zev_pmul p q x : zev (pmul p q) x = zev p x * zev q x.
Proof.
  induction p as [|a [|b p] IH].
  - reflexivity.
  - cbn [pmul zev]. rewrite zev_map_mul. ring.
  - change (pmul (a :: b :: p) q) with (padd (map (Z.mul a) q) (0 :: pmul (b :: p) q)).
    rewrite zev_padd, zev_map_mul. cbn [zev] in *. rewrite IH. ring.
Qed.
Lemma pmul_length p q : p <> [] -> q <> [] -> length (pmul p q) = (length p + length q - 1)%nat.
Proof.
  intros Hp Hq. induction p as [|a [|b p] IH]; [contradiction| |].
  - cbn [pmul length]. rewrite map_length. lia.
  - change (pmul (a :: b :: p) q) with (padd (map (Z.mul a) q) (0 :: pmul (b :: p) q)).
    rewrite padd_length, map_length. cbn [length] in *. rewrite IH by discriminate.
    destruct q; [contradiction|]. cbn [length]. lia.
Qed.

Lemma zev_zero p : (forall x, 1 <= x -> zev p x = 0) -> Forall (fun a => a = 0) p.
Proof.
  induction p as [|a p IH]; intros H; [constructor|].
  assert (Ha : a = 0).
  { assert (K : (Z.abs a + 1 | a)).
    { exists (- zev p (Z.abs a + 1)). specialize (H (Z.abs a + 1) ltac:(lia)). cbn [zev] in H. lia. }
    destruct (Z.eq_dec a 0); [assumption|]. exfalso. apply (proj2 (Z.divide_abs_r _ _)) in K. apply Z.divide_pos_le in K; lia. }
  subst a. constructor; [reflexivity|]. apply IH. intros x Hx. specialize (H x Hx). cbn [zev] in H. nia.
Qed.

Lemma zev_inj p : forall q, length p = length q -> (forall x, 1 <= x -> zev p x = zev q x) -> p = q.
Proof.
  intros q Hl He.
  assert (F : Forall (fun a => a = 0) (padd p (map (Z.mul (-1)) q))).
  { apply zev_zero. intros x Hx. rewrite zev_padd, zev_map_mul, (He x Hx). ring. }
  clear He. revert q Hl F. induction p as [|a p IH]; intros [|b q] Hl F; try discriminate; [reflexivity|].
  cbn [map padd] in F. pose proof (Forall_inv F) as F1. pose proof (Forall_inv_tail F) as F2. cbv beta in F1.
  f_equal; [lia|]. apply IH; [cbn in Hl; lia|assumption].
Qed.

(** ** The shift as a mathematical function *)
Definition addh (a : Z) (s : list Z) : list Z := match s with [] => [a] | b :: _ => (a + b) :: s end.
Definition sufsum (l : list Z) : list Z := fold_right addh [] l.
Fixpoint tshn (n : nat) (l : list Z) : list Z :=
  match n with
  | O => l
  | S n' => match sufsum l with [] => [] | h :: t => h :: tshn n' t end
  end.
Definition tsh (l : list Z) : list Z := tshn (length l - 1) l.

Lemma addh_length a s : length (addh a s) = S (length s).
Proof. destruct s; reflexivity. Qed.
Lemma sufsum_length l : length (sufsum l) = length l.
Proof. induction l as [|a l IH]; [reflexivity|]. cbn [sufsum fold_right]. rewrite addh_length. cbn. f_equal. exact IH. Qed.
Lemma sufsum_eval l : match sufsum l with
  | [] => l = []
  | h :: t => h = zev l 1 /\ forall x, zev l x = h + (x - 1) * zev t x
  end.
Proof.
  induction l as [|a l IH]; [reflexivity|]. change (sufsum (a :: l)) with (addh a (sufsum l)).
  destruct (sufsum l) as [|h t]; cbn [addh].
  - subst l. cbn [zev]. split; intros; ring.
  - destruct IH as [IH1 IH2]. split; [cbn [zev]; rewrite <- IH1; ring|]. intros x. cbn [zev]. rewrite IH2. ring.
Qed.
Lemma tshn_length n : forall l, length (tshn n l) = length l.
Proof.
  induction n as [|n IH]; intros l; cbn [tshn]; [reflexivity|].
  pose proof (sufsum_length l) as E. destruct (sufsum l); [assumption|]. cbn [length] in *. rewrite IH. assumption.
Qed.
Lemma tsh_length l : length (tsh l) = length l.
Proof. apply tshn_length. Qed.
Lemma tshn_eval n : forall l x, (length l <= S n)%nat -> zev (tshn n l) x = zev l (x + 1).
Proof.
  induction n as [|n IH]; intros l x Hl.
  - cbn [tshn]. destruct l as [|a [|b l]]; cbn in *; try reflexivity; try lia.
  - cbn [tshn]. pose proof (sufsum_eval l) as E. pose proof (sufsum_length l) as L.
    destruct (sufsum l) as [|h t]; [subst l; reflexivity|]. destruct E as [E1 E2]. cbn [length] in L.
    cbn [zev]. rewrite IH by lia. rewrite (E2 (x + 1)). ring.
Qed.
Lemma tsh_eval l x : zev (tsh l) x = zev l (x + 1).
Proof. unfold tsh. apply tshn_eval. lia. Qed.
Lemma tsh_unique l m : length m = length l -> (forall x, zev m x = zev l (x + 1)) -> m = tsh l.
Proof. intros Hl He. apply zev_inj; [rewrite tsh_length; assumption|]. intros x _. rewrite tsh_eval. apply He. Qed.

(** ** The loops *)
Lemma getz_app u a v : getz (u ++ a :: v) (length u) = Some a.
Proof. unfold getz. rewrite nth_error_app2 by lia. rewrite Nat.sub_diag. reflexivity. Qed.
Lemma setz_app u a v b : setz (u ++ a :: v) (length u) b = Some (u ++ b :: v).
Proof. induction u as [|c u IH]; cbn [app length setz]; [reflexivity|]. rewrite IH. reflexivity. Qed.

Lemma shift_inner_ok m : forall pre s, s <> [] ->
  shift_inner (length m) (length pre + length m - 1) (pre ++ m ++ s) = Some (pre ++ fold_right addh s m).
Proof.
  induction m as [|a m IH] using rev_ind; intros pre s Hs; [reflexivity|].
  destruct s as [|b s]; [contradiction|].
  rewrite app_length. cbn [length]. replace (length m + 1)%nat with (S (length m)) by lia. cbn [shift_inner].
  replace (length pre + S (length m) - 1)%nat with (length (pre ++ m)) by (rewrite app_length; lia).
  rewrite <- !app_assoc. cbn [app]. rewrite (app_assoc pre m).
  rewrite getz_app. cbn [obind].
  replace (length (pre ++ m) + 1)%nat with (length ((pre ++ m) ++ [a])) by (rewrite app_length; cbn; lia).
  replace ((pre ++ m) ++ a :: b :: s) with (((pre ++ m) ++ [a]) ++ b :: s) by (rewrite <- app_assoc; reflexivity).
  rewrite getz_app. cbn [obind]. rewrite <- app_assoc. cbn [app]. rewrite setz_app. cbn [obind].
  rewrite <- app_assoc. rewrite app_length. rewrite IH by discriminate. rewrite fold_right_app. reflexivity.
Qed.

Lemma shift_inner_suf pre l : l <> [] ->
  shift_inner (length l - 1) (length pre + length l - 2) (pre ++ l) = Some (pre ++ sufsum l).
Proof.
  intros Hl. destruct (exists_last Hl) as (m & z & ->). rewrite app_length. cbn [length].
  replace (length m + 1 - 1)%nat with (length m) by lia.
  replace (length pre + (length m + 1) - 2)%nat with (length pre + length m - 1)%nat by lia.
  rewrite shift_inner_ok by discriminate. f_equal. f_equal. unfold sufsum. rewrite fold_right_app. reflexivity.
Qed.

Lemma shift_outer_ok n : forall pre l, length l = S n ->
  shift_outer n (length pre) (length pre + n) (pre ++ l) = Some (pre ++ tshn n l).
Proof.
  induction n as [|n IH]; intros pre l Hl; [reflexivity|].
  cbn [shift_outer tshn]. replace (length pre + S n - length pre)%nat with (length l - 1)%nat by lia.
  replace (length pre + S n - 1)%nat with (length pre + length l - 2)%nat by lia.
  rewrite shift_inner_suf by (destruct l; [discriminate|discriminate]). cbn [obind].
  pose proof (sufsum_length l) as L. destruct (sufsum l) as [|h t]; [cbn in L; lia|]. cbn [length] in L.
  replace (pre ++ h :: t) with ((pre ++ [h]) ++ t) by (rewrite <- app_assoc; reflexivity).
  replace (S (length pre)) with (length (pre ++ [h])) by (rewrite app_length; cbn; lia).
  replace (length pre + S n)%nat with (length (pre ++ [h]) + n)%nat by (rewrite app_length; cbn; lia).
  rewrite IH by lia. rewrite <- app_assoc. reflexivity.
Qed.

Lemma naive_ok u deg : length u = S deg -> deg <> 0%nat -> taylorshift1_naive u deg = Some (tsh u).
Proof.
  intros Hl Hd. unfold taylorshift1_naive. destruct deg as [|d]; [contradiction|].
  unfold tsh. rewrite Hl. replace (S (S d) - 1)%nat with (S d) by lia.
  apply (shift_outer_ok (S d) [] u Hl).
Qed.

(** ** Contents *)
Lemma ctz_pos_div p : (2 ^ Z.of_nat (ctz_pos p) | Zpos p).
Proof.
  induction p as [p IH|p IH|]; cbn [ctz_pos]; try (rewrite Z.pow_0_r; apply Z.divide_1_l).
  rewrite Nat2Z.inj_succ, Z.pow_succ_r by lia. replace (Zpos (xO p)) with (2 * Zpos p) by reflexivity. apply Z.mul_divide_mono_l. assumption.
Qed.
Lemma scan1_div x c : (c <= scan1 x)%nat -> (2 ^ Z.of_nat c | x).
Proof.
  intros H. destruct x as [|p|p]; [apply Z.divide_0_r| |].
  - apply Z.divide_trans with (2 ^ Z.of_nat (ctz_pos p)); [|apply ctz_pos_div]. cbn [scan1] in H.
    exists (2 ^ Z.of_nat (ctz_pos p - c)). rewrite <- Z.pow_add_r by lia. f_equal. lia.
  - rewrite <- Pos2Z.opp_pos. apply Z.divide_opp_r.
    apply Z.divide_trans with (2 ^ Z.of_nat (ctz_pos p)); [|apply ctz_pos_div]. cbn [scan1] in H.
    exists (2 ^ Z.of_nat (ctz_pos p - c)). rewrite <- Z.pow_add_r by lia. f_equal. lia.
Qed.
Lemma content_loop_le u : forall c, (content_loop c u <= c)%nat.
Proof.
  induction u as [|a u IH]; intros c; cbn [content_loop]; [lia|].
  destruct (c =? 0)%nat; [lia|]. destruct (a =? 0); [apply IH|].
  destruct (scan1 a <? c)%nat eqn:E; [apply Nat.ltb_lt in E; pose proof (IH (scan1 a)); lia|apply IH].
Qed.
Lemma content_loop_div u : forall c a, In a u -> (2 ^ Z.of_nat (content_loop c u) | a).
Proof.
  induction u as [|b u IH]; intros c a Ha; [destruct Ha|]. cbn [content_loop].
  destruct (c =? 0)%nat eqn:E0; [apply Nat.eqb_eq in E0; subst; rewrite Z.pow_0_r; apply Z.divide_1_l|].
  destruct (Z.eqb_spec b 0) as [->|Hb].
  - destruct Ha as [<-|Ha]; [apply Z.divide_0_r|auto].
  - destruct Ha as [<-|Ha]; [|auto]. apply scan1_div.
    pose proof (content_loop_le u (if (scan1 b <? c)%nat then scan1 b else c)).
    destruct (scan1 b <? c)%nat eqn:E; [lia|]. apply Nat.ltb_ge in E. lia.
Qed.
Lemma content_start_div u : forall c a, content_start u = Some c -> In a u -> (2 ^ Z.of_nat c | a).
Proof.
  induction u as [|b u IH]; intros c a Hc Ha; [discriminate|]. cbn [content_start] in Hc.
  destruct (Z.eqb_spec b 0) as [->|Hb].
  - destruct Ha as [<-|Ha]; [apply Z.divide_0_r|eauto].
  - assert (E : content_loop (scan1 b) (b :: u) = c) by congruence. rewrite <- E. apply content_loop_div. assumption.
Qed.
Lemma content_start_some u : last u 0 <> 0 -> exists c, content_start u = Some c.
Proof.
  induction u as [|b u IH]; intros H; [contradiction|]. cbn [content_start].
  destruct (Z.eqb_spec b 0) as [->|Hb]; [|eauto]. apply IH. destruct u; [cbn in H; contradiction|exact H].
Qed.
Lemma remove_content_ok u : exists c v, remove_binary_content u = Some (c, v) /\
  length v = length u /\ u = map (fun x => x * 2 ^ Z.of_nat c) v.
Proof.
  unfold remove_binary_content.
  assert (Z0 : u = map (fun x => x * 2 ^ Z.of_nat 0) u).
  { clear. induction u as [|a u IH]; [reflexivity|]. cbn [map]. rewrite <- IH. f_equal. change (Z.of_nat 0) with 0. rewrite Z.pow_0_r. ring. }
  destruct (Z.eqb_spec (last u 0) 0) as [E|E]; [exists O, u; auto|].
  destruct (content_start_some u E) as [c Hc]. rewrite Hc. cbn [obind].
  destruct (c =? 0)%nat; [exists O, u; auto|].
  exists c, (map (fun x => x / 2 ^ Z.of_nat c) u). repeat split; [apply map_length|].
  assert (D : forall a, In a u -> (2 ^ Z.of_nat c | a)) by (intros; eapply content_start_div; eauto).
  rewrite map_map. clear - D. induction u as [|a u IH]; [reflexivity|]. cbn [map]. f_equal.
  - assert (P : 0 < 2 ^ Z.of_nat c) by (apply Z.pow_pos_nonneg; lia).
    destruct (D a (or_introl eq_refl)) as [k ->]. rewrite Z.div_mul by lia. reflexivity.
  - apply IH. intros b Hb. apply D. right. assumption.
Qed.
Lemma rescale_eq u c : rescale_2exp u c = map (fun x => x * 2 ^ Z.of_nat c) u.
Proof.
  unfold rescale_2exp. destruct (Nat.eqb_spec c 0) as [->|H]; [|reflexivity].
  change (Z.of_nat 0) with 0. induction u as [|a u IH]; [reflexivity|]. cbn [map]. rewrite <- IH. f_equal. rewrite Z.pow_0_r. ring.
Qed.

(** ** Blocks *)
Lemma subz_ok pre l post : subz (pre ++ l ++ post) (length pre) (length l) = Some l.
Proof.
  unfold subz. rewrite !app_length. destruct (Nat.leb_spec (length pre + length l) (length pre + (length l + length post))); [|lia].
  f_equal. rewrite skipn_app, skipn_all, Nat.sub_diag. cbn [app skipn]. rewrite firstn_app, firstn_all, Nat.sub_diag.
  cbn [firstn]. apply app_nil_r.
Qed.
Lemma blit_ok pre l l' post : length l' = length l -> blit (pre ++ l ++ post) (length pre) l' = Some (pre ++ l' ++ post).
Proof.
  intros H. unfold blit. rewrite !app_length, H.
  destruct (Nat.leb_spec (length pre + length l) (length pre + (length l + length post))); [|lia].
  rewrite firstn_app, firstn_all, Nat.sub_diag. cbn [firstn]. rewrite app_nil_r.
  rewrite skipn_app. rewrite (skipn_all2 pre) by lia. cbn [app].
  replace (length pre + length l - length pre)%nat with (length l) by lia.
  rewrite skipn_app, skipn_all, Nat.sub_diag. reflexivity.
Qed.

Lemma block_shift_ok pre b post d : length b = S d -> d <> 0%nat ->
  block_shift (pre ++ b ++ post) (length pre) d = Some (pre ++ tsh b ++ post).
Proof.
  intros Hb Hd. unfold block_shift. replace (d + 1)%nat with (length b) by lia. rewrite subz_ok. cbn [obind].
  destruct (remove_content_ok b) as (c & v & E & Hv & Eb). rewrite E. cbn [obind snd fst].
  rewrite naive_ok by lia. cbn [obind]. rewrite rescale_eq.
  assert (T : map (fun x => x * 2 ^ Z.of_nat c) (tsh v) = tsh b).
  { apply tsh_unique; [rewrite map_length, tsh_length; assumption|]. intros x.
    rewrite zev_map_mulr, tsh_eval. rewrite Eb, zev_map_mulr. reflexivity. }
  rewrite T. apply blit_ok. rewrite tsh_length. reflexivity.
Qed.

(** Table entry for blocks of [sz] coefficients. *)
Definition is_pow (sz : nat) (s : list Z) : Prop :=
  length s = S sz /\ forall x, zev s x = (x + 1) ^ Z.of_nat sz.

Lemma merge_tsh lo hi s : is_pow (length lo) s ->
  tsh (lo ++ hi) = padd (tsh lo) (firstn (length lo) (pmul s (tsh hi))) ++ skipn (length lo) (pmul s (tsh hi)) \/ hi = [].
Proof.
  intros [Ls Es]. destruct hi as [|h0 hi]; [right; reflexivity|left]. set (h := h0 :: hi).
  assert (Hh : h <> []) by discriminate.
  assert (Hs : s <> []) by (destruct s; [discriminate|discriminate]).
  assert (Ht : tsh h <> []) by (intros E; pose proof (tsh_length h) as L; rewrite E in L; discriminate).
  assert (Lp : length (pmul s (tsh h)) = (length lo + length h)%nat) by (rewrite pmul_length, tsh_length by assumption; lia).
  symmetry. apply tsh_unique.
  - rewrite !app_length, padd_length, tsh_length, firstn_length, skipn_length. lia.
  - intros x. rewrite zev_app, zev_padd, padd_length, tsh_length, firstn_length, Lp.
    replace (max (length lo) (min (length lo) (length lo + length h))) with (length lo) by lia.
    rewrite tsh_eval, (zev_app lo h).
    pose proof (zev_pmul s (tsh h) x) as P.
    rewrite <- (firstn_skipn (length lo) (pmul s (tsh h))) in P. rewrite zev_app, firstn_length, Lp in P.
    replace (min (length lo) (length lo + length h)) with (length lo) in P by lia.
    rewrite Es, tsh_eval in P. lia.
Qed.

Lemma merge_pair_ok pre lo hi post s d : is_pow (length lo) s -> length hi = S d ->
  merge_pair (pre ++ (tsh lo ++ tsh hi) ++ post) s (length pre) (length lo) d =
  Some (pre ++ tsh (lo ++ hi) ++ post).
Proof.
  intros Hs Hd. unfold merge_pair.
  replace (d + 1)%nat with (length (tsh hi)) by (rewrite tsh_length; lia).
  replace (length pre + length lo)%nat with (length (pre ++ tsh lo)) by (rewrite app_length, tsh_length; reflexivity).
  rewrite <- (app_assoc (tsh lo)). rewrite (app_assoc pre (tsh lo)). rewrite subz_ok. cbn [obind].
  destruct (remove_content_ok (tsh hi)) as (c & v & E & Hv & Eb). rewrite E. cbn [obind snd fst]. rewrite rescale_eq.
  assert (T : map (fun x => x * 2 ^ Z.of_nat c) (pmul s v) = pmul s (tsh hi)).
  { assert (s <> []) by (destruct Hs as [L _]; destruct s; [discriminate|discriminate]).
    assert (v <> []) by (intros ->; rewrite tsh_length, Hd in Hv; discriminate).
    assert (tsh hi <> []) by (intros K; rewrite K in Hv; destruct v; [contradiction|discriminate]).
    apply zev_inj; [rewrite map_length, !pmul_length by assumption; lia|].
    intros x _. rewrite zev_map_mulr, !zev_pmul. rewrite Eb, zev_map_mulr. ring. }
  rewrite T. rewrite <- !app_assoc.
  replace (length lo) with (length (tsh lo)) at 1 by apply tsh_length. rewrite subz_ok. cbn [obind].
  destruct (merge_tsh lo hi s Hs) as [M|M]; [|subst; discriminate].
  assert (Lp : length (pmul s (tsh hi)) = (length lo + length hi)%nat).
  { rewrite pmul_length, tsh_length; [destruct Hs as [L _]; lia| |].
    - destruct Hs as [L _]. destruct s; discriminate.
    - intros K. pose proof (tsh_length hi) as L. rewrite K in L. cbn in L. lia. }
  assert (S1 : subz (pmul s (tsh hi)) 0 (length lo) = Some (firstn (length lo) (pmul s (tsh hi)))).
  { unfold subz. rewrite Lp. destruct (Nat.leb_spec (0 + length lo) (length lo + length hi)); [reflexivity|lia]. }
  assert (S2 : subz (pmul s (tsh hi)) (length lo) (length (tsh hi)) = Some (skipn (length lo) (pmul s (tsh hi)))).
  { unfold subz. rewrite Lp, tsh_length. destruct (Nat.leb_spec (length lo + length hi) (length lo + length hi)); [|lia].
    f_equal. apply firstn_all2. rewrite skipn_length. lia. }
  rewrite S1, S2. cbn [obind].
  assert (L1 : length (padd (tsh lo) (firstn (length lo) (pmul s (tsh hi)))) = length (tsh lo)).
  { rewrite padd_length, firstn_length, tsh_length. lia. }
  rewrite blit_ok by assumption. cbn [obind]. rewrite M.
  set (p := padd _ _) in *. rewrite (app_assoc pre p).
  replace (length (pre ++ tsh lo)) with (length (pre ++ p)) by (rewrite !app_length, L1; reflexivity).
  rewrite blit_ok by (rewrite skipn_length, tsh_length; lia). rewrite <- !app_assoc. reflexivity.
Qed.

(** ** Levels *)
(** A polynomial cut in blocks: all of [sz] coefficients but the last, which has [S d] >= 2. *)
Inductive blocks (sz : nat) : list (list Z) -> Prop :=
| blocks_one b : (2 <= length b)%nat -> blocks sz [b]
| blocks_cons b bs : length b = sz -> blocks sz bs -> blocks sz (b :: bs).

Lemma blocks_concat sz bs : blocks sz bs -> (length (concat bs) = (length bs - 1) * sz + length (last bs []))%nat.
Proof.
  induction 1 as [b Hb|b bs Hb H IH]; [cbn; rewrite app_length; cbn; lia|].
  destruct bs as [|c bs]; [inversion H|].
  change (concat (b :: c :: bs)) with (b ++ concat (c :: bs)). rewrite app_length, IH.
  change (last (b :: c :: bs) []) with (last (c :: bs) []). cbn [length]. nia.
Qed.

Lemma blocks_last sz bs : blocks sz bs -> (2 <= length (last bs []))%nat.
Proof. induction 1 as [b Hb|b bs Hb H IH]; [assumption|]. destruct bs; [inversion H|exact IH]. Qed.

Lemma concat_tsh_length bs : length (concat (map tsh bs)) = length (concat bs).
Proof. induction bs as [|b bs IH]; [reflexivity|]. cbn [map concat]. rewrite !app_length, tsh_length, IH. reflexivity. Qed.

Lemma block_loop_ok sz nb (Hsz : (2 <= sz)%nat) bs : blocks sz bs -> forall pre i fdeg,
  length pre = (i * sz)%nat -> (i + length bs = nb)%nat -> length (last bs []) = S fdeg ->
  block_loop (length bs) i nb sz fdeg (pre ++ concat bs) = Some (pre ++ concat (map tsh bs)).
Proof.
  induction 1 as [b Hb|b bs Hb H IH]; intros pre i fdeg Hp Hi Hf.
  - cbn [length block_loop concat map] in *. rewrite !app_nil_r. cbn [last] in Hf.
    destruct (Nat.ltb_spec i (nb - 1)); [lia|]. rewrite <- Hp.
    replace (pre ++ b) with (pre ++ b ++ []) by (rewrite app_nil_r; reflexivity).
    rewrite block_shift_ok by lia. cbn [obind]. rewrite app_nil_r. reflexivity.
  - cbn [length block_loop concat map] in *.
    assert (Hbs : (1 <= length bs)%nat) by (destruct bs; [inversion H|cbn; lia]).
    destruct (Nat.ltb_spec i (nb - 1)); [|lia]. rewrite <- Hp.
    rewrite block_shift_ok by lia. cbn [obind]. rewrite (app_assoc pre (tsh b)).
    rewrite IH; [rewrite <- app_assoc; reflexivity| |lia|].
    + rewrite app_length, tsh_length, Hp, Hb. lia.
    + destruct bs; [inversion H|exact Hf].
Qed.

Fixpoint pair_up (bs : list (list Z)) : list (list Z) :=
  match bs with a :: b :: bs' => (a ++ b) :: pair_up bs' | _ => bs end.

Lemma pair_up_concat n : forall bs, (length bs <= n)%nat -> concat (pair_up bs) = concat bs.
Proof.
  induction n as [|n IH]; intros [|a [|b bs]] H; try reflexivity; cbn [length] in *; try lia.
  cbn [pair_up concat]. rewrite IH by lia. rewrite app_assoc. reflexivity.
Qed.
Lemma pair_up_blocks sz n : forall bs, length bs = (2 * n)%nat -> (1 <= n)%nat -> blocks sz bs ->
  blocks (2 * sz) (pair_up bs) /\ length (pair_up bs) = n.
Proof.
  induction n as [|n IH]; intros bs Hl Hn HB; [lia|].
  destruct bs as [|a [|b bs]]; cbn [length] in *; try lia.
  inversion HB as [|? ? Ha HB1]; subst. cbn [pair_up].
  destruct n as [|n].
  - destruct bs; [|cbn in *; lia]. cbn [pair_up]. split; [|reflexivity]. apply blocks_one.
    inversion HB1 as [|? ? ? HB2]; subst; [|inversion HB2]. rewrite app_length. lia.
  - inversion HB1 as [|? ? Hb HB2]; subst; [cbn in *; lia|].
    destruct (IH bs ltac:(lia) ltac:(lia) HB2) as [I1 I2]. split; [|cbn [length]; lia].
    apply blocks_cons; [rewrite app_length; lia|assumption].
Qed.

Lemma merge_loop_ok sz s (Hsz : (1 <= sz)%nat) (Hs : is_pow sz s) nb n : forall bs pre count fdeg,
  length bs = (2 * n)%nat -> (1 <= n)%nat -> blocks sz bs ->
  length pre = (2 * (count - 1) * sz)%nat -> (1 <= count)%nat -> (count + n = S nb)%nat -> length (last bs []) = S fdeg ->
  merge_loop n count nb sz fdeg s (pre ++ concat (map tsh bs)) = Some (pre ++ concat (map tsh (pair_up bs))).
Proof.
  induction n as [|n IH]; intros bs pre count fdeg Hl Hn HB Hp Hc Hcn Hf; [lia|].
  destruct bs as [|a [|b bs]]; cbn [length] in *; try lia.
  inversion HB as [|? ? Ha HB1]; subst. cbn [pair_up map concat merge_loop]. rewrite <- Hp.
  rewrite (app_assoc (tsh a)).
  destruct n as [|n].
  - destruct bs; [|cbn in *; lia]. cbn [last] in Hf. replace (count =? nb)%nat with true by (symmetry; apply Nat.eqb_eq; lia).
    rewrite merge_pair_ok by assumption. reflexivity.
  - inversion HB1 as [|? ? Hb HB2]; subst; [cbn in *; lia|].
    replace (count =? nb)%nat with false by (symmetry; apply Nat.eqb_neq; lia).
    assert (Hb1 : length b = S (length a - 1)) by lia.
    rewrite merge_pair_ok by assumption. cbn [obind]. rewrite (app_assoc pre (tsh (a ++ b))).
    rewrite IH; [rewrite <- app_assoc; reflexivity|lia|lia|assumption| |lia|lia|].
    + rewrite app_length, tsh_length, app_length, Hp, Hb. nia.
    + destruct bs as [|c bs]; [inversion HB2|]. exact Hf.
Qed.

Definition good_table (sz : nat) (tbl : list (list Z)) (n : nat) : Prop :=
  forall i, (i < n)%nat -> exists s, nth_error tbl i = Some s /\ is_pow (sz * 2 ^ i) s.

Lemma level_loop_ok deg tbl sz0 (Hsz0 : (2 <= sz0)%nat) cnt : forall i nb bs,
  length bs = nb -> nb = (2 ^ (cnt + 1))%nat -> blocks (sz0 * 2 ^ i) bs -> length (concat bs) = S deg ->
  good_table sz0 tbl (i + cnt) ->
  exists bs', level_loop cnt i nb (sz0 * 2 ^ i) deg tbl (concat (map tsh bs)) =
      Some ((sz0 * 2 ^ (i + cnt))%nat, concat (map tsh bs')) /\
    blocks (sz0 * 2 ^ (i + cnt)) bs' /\ length bs' = 2%nat /\ concat bs' = concat bs.
Proof.
  induction cnt as [|cnt IH]; intros i nb bs Hl Hn HB Hd HT.
  - exists bs. rewrite Nat.add_0_r. cbn [level_loop]. subst nb. cbn in Hn. auto.
  - cbn [level_loop]. destruct (HT i ltac:(lia)) as (s & Es & Ps). rewrite Es. cbn [obind].
    assert (Hn2 : nb = (2 * 2 ^ (cnt + 1))%nat) by (rewrite Hn; reflexivity).
    assert (P0 : (1 <= 2 ^ (cnt + 1))%nat) by (pose proof (Nat.pow_nonzero 2 (cnt + 1)); lia).
    destruct (Nat.ltb_spec 1 nb); [|lia].
    replace (nb / 2)%nat with (2 ^ (cnt + 1))%nat by (rewrite Hn2, Nat.mul_comm, Nat.div_mul; lia).
    assert (P1 : (1 <= sz0 * 2 ^ i)%nat) by (pose proof (Nat.pow_nonzero 2 i); nia).
    assert (HF : length (last bs []) = S (deg - (nb - 1) * (sz0 * 2 ^ i))).
    { pose proof (blocks_concat _ _ HB) as C. pose proof (blocks_last _ _ HB) as L. rewrite Hd, Hl in C. lia. }
    change (concat (map tsh bs)) with ([] ++ concat (map tsh bs)).
    rewrite (merge_loop_ok _ s P1 Ps _ _ bs [] 1); [|lia|assumption|assumption|reflexivity|lia|lia|assumption].
    cbn [obind app].
    destruct (pair_up_blocks _ (2 ^ (cnt + 1)) bs ltac:(lia) P0 HB) as [B1 B2].
    assert (C1 : concat (pair_up bs) = concat bs) by (apply (pair_up_concat (length bs)); lia).
    replace (2 * (sz0 * 2 ^ i))%nat with (sz0 * 2 ^ S i)%nat in * by (cbn [Nat.pow]; lia).
    destruct (IH (S i) (2 ^ (cnt + 1))%nat (pair_up bs) B2 eq_refl B1) as (bs' & E1 & E2 & E3 & E4).
    + rewrite C1. assumption.
    + replace (S i + cnt)%nat with (i + S cnt)%nat by lia. assumption.
    + exists bs'. replace (i + S cnt)%nat with (S i + cnt)%nat by lia. rewrite E1. repeat split; auto. congruence.
Qed.

Lemma cut_blocks sz (Hsz : (1 <= sz)%nat) n : forall u, (n * sz < length u)%nat -> (1 <= n)%nat ->
  exists bs, blocks sz bs /\ length bs = n /\ concat bs = u.
Proof.
  induction n as [|n IH]; intros u Hu Hn; [lia|]. destruct n as [|n].
  - exists [u]. split; [apply blocks_one; lia|]. split; [reflexivity|]. cbn. apply app_nil_r.
  - destruct (IH (skipn sz u)) as (bs & B1 & B2 & B3); [rewrite skipn_length; lia|lia|].
    exists (firstn sz u :: bs). split; [apply blocks_cons; [rewrite firstn_length; lia|assumption]|].
    split; [cbn; lia|]. cbn [concat]. rewrite B3. apply firstn_skipn.
Qed.

Lemma nblocks_bound deg sz : (1 <= sz)%nat -> (nblocks_of deg sz * sz <= deg)%nat.
Proof.
  intros H. unfold nblocks_of. destruct (Nat.leb_spec deg sz); [lia|].
  assert (1 <= deg / sz)%nat by (apply Nat.div_le_lower_bound; lia).
  pose proof (Nat.log2_spec (deg / sz) ltac:(lia)) as [L _].
  pose proof (Nat.mul_div_le deg sz ltac:(lia)). nia.
Qed.

Lemma nblocks_pow deg sz : (1 < nblocks_of deg sz)%nat ->
  exists n, (1 <= n)%nat /\ nblocks_of deg sz = (2 ^ n)%nat /\ Nat.log2 (nblocks_of deg sz) = n.
Proof.
  unfold nblocks_of. destruct (deg <=? sz)%nat; [lia|]. intros H. exists (Nat.log2 (deg / sz)).
  split; [|split; [reflexivity|apply Nat.log2_pow2; lia]].
  destruct (Nat.log2 (deg / sz)); [cbn in H; lia|lia].
Qed.

Lemma dac_ok u deg tbl sz : length u = S deg -> deg <> 0%nat -> (2 <= sz)%nat ->
  good_table sz tbl (Nat.log2 (nblocks_of deg sz)) ->
  taylorshift1_dac u deg tbl sz = Some (tsh u).
Proof.
  intros Hl Hd Hsz HT. unfold taylorshift1_dac.
  destruct (Nat.leb_spec (nblocks_of deg sz) 1) as [L|L]; [apply naive_ok; assumption|].
  pose proof (nblocks_bound deg sz ltac:(lia)) as B.
  destruct (nblocks_pow deg sz L) as (n & Hn1 & Hn2 & Hn3). rewrite Hn3 in *.
  destruct (cut_blocks sz ltac:(lia) (nblocks_of deg sz) u) as (bs & B1 & B2 & B3); [lia|lia|].
  rewrite <- B3. change (concat bs) with ([] ++ concat bs) at 1. rewrite <- B2 at 1.
  assert (HF : length (last bs []) = S (deg - (nblocks_of deg sz - 1) * sz)).
  { pose proof (blocks_concat _ _ B1) as C. pose proof (blocks_last _ _ B1) as K. rewrite B3, Hl, B2 in C. lia. }
  rewrite (block_loop_ok sz _ Hsz bs B1); [|reflexivity|lia|assumption]. cbn [obind app].
  destruct (level_loop_ok deg tbl sz Hsz (n - 1) 0 (nblocks_of deg sz) bs) as (bs' & E1 & E2 & E3 & E4).
  - assumption.
  - rewrite Hn2. f_equal. lia.
  - replace (sz * 2 ^ 0)%nat with sz by (cbn; lia). assumption.
  - rewrite B3. assumption.
  - intros j Hj. apply HT. lia.
  - replace (sz * 2 ^ 0)%nat with sz in E1 by (cbn; lia). rewrite E1. cbn [obind fst snd].
    destruct (HT (n - 1)%nat ltac:(lia)) as (s & Es & Ps). rewrite Es. cbn [obind].
    replace (0 + (n - 1))%nat with (n - 1)%nat in * by lia.
    destruct bs' as [|a [|b [|? ?]]]; try discriminate.
    inversion_clear E2 as [|? ? Ha E5].
    assert (La : (1 <= length a)%nat) by (rewrite Ha; pose proof (Nat.pow_nonzero 2 (n - 1)); nia).
    rewrite <- Ha in *.
    assert (Hb : (2 <= length b)%nat) by (inversion E5 as [|? ? ? E6]; [assumption|inversion E6]).
    assert (Hc : (length a + length b = S deg)%nat).
    { rewrite <- Hl, <- B3, <- E4. cbn [concat]. rewrite app_nil_r, app_length. reflexivity. }
    cbn [map concat]. rewrite app_nil_r.
    pose proof (merge_pair_ok [] a b [] s (deg - length a) Ps ltac:(lia)) as M. cbn [app length] in M.
    rewrite !app_nil_r in M. rewrite M. f_equal. f_equal. rewrite <- E4. cbn [concat]. rewrite app_nil_r. reflexivity.
Qed.

(** ** Tables *)
Lemma is_pow_mul n s : is_pow n s -> is_pow (2 * n) (pmul s s).
Proof.
  intros [L E]. assert (s <> []) by (destruct s; discriminate). split.
  - rewrite pmul_length by assumption. lia.
  - intros x. rewrite zev_pmul, !E, <- Z.pow_add_r by lia. f_equal. lia.
Qed.
Lemma squares_good sz cnt : forall p k, is_pow (sz * 2 ^ k) p -> forall i, (i < cnt)%nat ->
  exists s, nth_error (squares cnt p) i = Some s /\ is_pow (sz * 2 ^ (k + i)) s.
Proof.
  induction cnt as [|cnt IH]; intros p k Hp i Hi; [lia|]. destruct i as [|i]; cbn [squares nth_error].
  - exists p. rewrite Nat.add_0_r. auto.
  - destruct (IH (pmul p p) (S k)) with (i := i) as (s & E1 & E2); [|lia|].
    + replace (sz * 2 ^ S k)%nat with (2 * (sz * 2 ^ k))%nat by (cbn [Nat.pow]; lia). apply is_pow_mul. assumption.
    + exists s. split; [assumption|]. replace (k + S i)%nat with (S k + i)%nat by lia. assumption.
Qed.
Lemma zev_monomial n x : zev (repeat 0 n ++ [1]) x = x ^ Z.of_nat n.
Proof.
  rewrite zev_app, repeat_length. cbn [zev].
  assert (Z0 : zev (repeat 0 n) x = 0) by (induction n as [|n IH]; cbn [repeat zev]; [reflexivity|rewrite IH; ring]).
  rewrite Z0. ring.
Qed.
Lemma compute_shift_pwx_ok npwr pwx : pwx <> 0%nat -> exists tbl, compute_shift_pwx npwr pwx = Some tbl /\ good_table pwx tbl npwr.
Proof.
  intros H. unfold compute_shift_pwx. destruct npwr as [|n]; [exists []; split; [reflexivity|intros i Hi; lia]|].
  rewrite naive_ok; [|rewrite app_length, repeat_length; cbn; lia|assumption]. cbn [obind].
  eexists. split; [reflexivity|]. intros i Hi.
  destruct (squares_good pwx (S n) (tsh (repeat 0 pwx ++ [1])) 0) with (i := i) as (s & E1 & E2); [|assumption|].
  - split.
    + rewrite tsh_length, app_length, repeat_length. cbn. lia.
    + intros x. rewrite tsh_eval, zev_monomial. do 2 f_equal. cbn. lia.
  - exists s. auto.
Qed.

Lemma degpower_loop_ok fuel : forall pwr, (1 <= pwr <= fuel)%nat -> exists q, degpower_loop fuel pwr = Some q /\ (1 <= q <= pwr)%nat /\ (q <= 256)%nat /\
  ((256 < pwr)%nat -> (128 <= q)%nat).
Proof.
  induction fuel as [|fuel IH]; intros pwr H; [lia|]. cbn [degpower_loop]. destruct pwr as [|p]; [lia|].
  destruct (Nat.leb_spec 256 p) as [L|L].
  - assert (D1 : (S p / 2 < S p)%nat) by (apply Nat.div_lt; lia).
    assert (D2 : (128 <= S p / 2)%nat) by (apply Nat.div_le_lower_bound; lia).
    destruct (IH (S p / 2)%nat) as (q & E & Q1 & Q2 & Q3); [lia|]. exists q. split; [assumption|]. split; [lia|]. split; [assumption|].
    intros _. destruct (Nat.le_gt_cases (S p / 2) 256) as [K|K]; [|apply Q3; assumption].
    destruct fuel as [|f]; [lia|]. cbn [degpower_loop] in E. destruct (S p / 2)%nat as [|r] eqn:Er; [lia|].
    destruct (Nat.leb_spec 256 r); [lia|]. injection E as <-. lia.
  - exists (S p). split; [reflexivity|]. lia.
Qed.
Lemma compute_degpower_ok deg : (1 <= deg)%nat -> exists q, compute_degpower deg = Some q /\ (1 <= q <= deg)%nat /\
  (q = 1 -> deg = 1)%nat.
Proof.
  intros H. unfold compute_degpower. destruct (degpower_loop_ok (S deg) deg ltac:(lia)) as (q & E & Q1 & Q2 & Q3).
  exists q. split; [assumption|]. split; [assumption|]. intros ->.
  destruct (Nat.le_gt_cases deg 256) as [K|K]; [|specialize (Q3 K); lia].
  cbn [degpower_loop] in E. destruct deg as [|d]; [lia|]. destruct (Nat.leb_spec 256 d); [lia|]. congruence.
Qed.
