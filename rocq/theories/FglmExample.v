(** A case for C57 and C58: the ideal of x0 - x1^2 and x1 x0 - 2 x1 - 3 modulo 101, with basis 1, x1, x0. *)
From Coq Require Import ZArith NArith Arith List Bool Lia Znumtheory.
From Verif Require Import LinSpec MonoSpec GbSpec GbProofs GbIdeal.
From Verif Require Import FpSpec FglmSpec ModInvModel NmodModel FpProofs BmModel BmProps FglmModel MatVecProofs ParamProofs FglmProps.
Import ListNotations.
Open Scope Z_scope.

Definition ex_g1 : list (Z * mono) := [(1, [1; 0]%N); (-1, [0; 2]%N)].
Definition ex_g2 : list (Z * mono) := [(1, [1; 1]%N); (-2, [0; 1]%N); (-3, [0; 0]%N)].
Definition ex_G (f : pf) : Prop := f = cf ex_g1 \/ f = cf ex_g2.
Definition ex_b (i : nat) : pf := cf [(1, match i with 0%nat => [0; 0]%N | 1%nat => [0; 1]%N | _ => [1; 0]%N end)].
Definition ex_M : mat := fun i j => match i, j with 0%nat, 1%nat => 1 | 1%nat, 2%nat => 1 | 2%nat, 0%nat => 3 | 2%nat, 1%nat => 2 | _, _ => 0 end.
Definition ex_m : sp_mat := {| m_ncols := 3; m_nrows := 1; m_dense := [3; 2; 0]; m_triv_idx := [0; 1]%nat; m_triv_pos := [1; 2]%nat; m_dense_idx := [2%nat]; m_dst := [1%nat] |}.

Example ex_represents : represents 101 ex_m ex_M.
Proof.
  constructor; cbn [ex_m m_ncols m_nrows m_dense m_triv_idx m_triv_pos m_dense_idx m_dst length Nat.sub Nat.mul Nat.add app]; try lia; try reflexivity.
  - intros c [<-|[<-|[<-|[]]]]; lia.
  - repeat constructor; cbn [In]; lia.
  - intros i [<-|[<-|[<-|[]]]]; lia.
  - intros i [<-|[<-|[]]]; lia.
  - intros t j Ht Hj. destruct t as [|[|?]]; [| |lia]; destruct j as [|[|[|?]]]; try lia; reflexivity.
  - intros r j Hr Hj. assert (r = 0%nat) by lia. subst r. destruct j as [|[|[|?]]]; try lia; reflexivity.
  - intros r j Hr Hj. assert (r = 0%nat) by lia. subst r. cbn [nth] in Hj. assert (j = 2%nat) by lia. subst j. reflexivity.
  - intros r Hr. assert (r = 0%nat) by lia. subst r. cbn [nth]. lia.
Qed.
Lemma ex_shift c u m : length u = 2%nat -> length m = 2%nat -> GbSpec.pmul (xpow 2 1 1) (cf [(c, u)]) m = cf [(c, mmul [0; 1]%N u)] m.
Proof. intros Hu Hm. rewrite <- (cf_shift 2 (xpow 2 1 1) [(c, u)] m); [reflexivity|reflexivity|intros t [<-|[]]; exact Hu|exact Hm]. Qed.
Example ex_mult : mult_matrix 2 101 ex_G 3 ex_b ex_M.
Proof.
  split; [reflexivity|]. intros i Hi. destruct i as [|[|[|?]]]; [| | |lia].
  - apply lspan_zero. intros m Hm. cbn [Nat.sub sumn ex_M]. change (ex_b 0) with (cf [(1, [0; 0]%N)]). change (ex_b 1) with (cf [(1, [0; 1]%N)]). change (ex_b 2) with (cf [(1, [1; 0]%N)]). rewrite ex_shift by (auto; reflexivity). change (mmul [0; 1]%N [0; 0]%N) with [0; 1]%N. unfold pzero. cbn [cf fst snd]. exists 0. destruct (mono_dec [0; 1]%N m), (mono_dec [0; 0]%N m), (mono_dec [1; 0]%N m); ring.
  - eapply I_eq; [apply (lspan_scale 2 101 _ (-1)); apply (ideal_gen 2 101 ex_G (cf ex_g1)); left; reflexivity|]. intros m Hm. cbn [Nat.sub sumn ex_M]. change (ex_b 0) with (cf [(1, [0; 0]%N)]). change (ex_b 1) with (cf [(1, [0; 1]%N)]). change (ex_b 2) with (cf [(1, [1; 0]%N)]). rewrite ex_shift by (auto; reflexivity). change (mmul [0; 1]%N [0; 1]%N) with [0; 2]%N. unfold ex_g1. cbn [cf fst snd]. exists 0. destruct (mono_dec [0; 2]%N m), (mono_dec [1; 0]%N m); ring.
  - eapply I_eq; [apply (ideal_gen 2 101 ex_G (cf ex_g2)); right; reflexivity|]. intros m Hm. cbn [Nat.sub sumn ex_M]. change (ex_b 0) with (cf [(1, [0; 0]%N)]). change (ex_b 1) with (cf [(1, [0; 1]%N)]). change (ex_b 2) with (cf [(1, [1; 0]%N)]). rewrite ex_shift by (auto; reflexivity). change (mmul [0; 1]%N [1; 0]%N) with [1; 1]%N. unfold ex_g2. cbn [cf fst snd]. exists 0. destruct (mono_dec [1; 1]%N m), (mono_dec [0; 1]%N m), (mono_dec [0; 0]%N m); ring.
Qed.
Example ex_vars : var_basis 2 (fun _ => false) ex_b.
Proof. intros q m Hq _. cbn in Hq. assert (q = 0%nat) by lia. subst q. reflexivity. Qed.

(** independence: the functionals x0^i x1^j -> t(2i + j), t a sequence with t(k+3) = 2 t(k+1) + 3 t(k), vanish on the ideal *)
Fixpoint rec3 (a b c : Z) (k : nat) : Z := match k with O => a | S k' => rec3 b c (2 * b + 3 * a) k' end.
Lemma rec3_step : forall k a b c, rec3 a b c (3 + k) = 2 * rec3 a b c (1 + k) + 3 * rec3 a b c k.
Proof. induction k as [|k IH]; intros a b c; [cbn; lia|]. exact (IH b c (2 * b + 3 * a)). Qed.
Section Fun.
Variables a b c : Z.
Definition tv (m : mono) : Z := rec3 a b c (N.to_nat (2 * nth 0 m 0%N + nth 1 m 0%N)).
Definition grid (n : nat) (f : pf) : Z := sumn n (fun i => sumn n (fun j => f [N.of_nat i; N.of_nat j] * tv [N.of_nat i; N.of_nat j])).
Lemma grid_add n f g x : grid n (fun m => x * f m + g m) = x * grid n f + grid n g.
Proof. unfold grid. rewrite <- sumn_scal, <- sumn_add. apply sumn_ext. intros i _. rewrite <- sumn_scal, <- sumn_add. apply sumn_ext. intros j _. ring. Qed.
Lemma grid_ext n f g : (forall m, length m = 2%nat -> eqp 101 (f m) (g m)) -> eqp 101 (grid n f) (grid n g).
Proof. intros H. apply sumn_eqp. intros i _. apply sumn_eqp. intros j _. rewrite (H [N.of_nat i; N.of_nat j] eq_refl). reflexivity. Qed.
Lemma grid_one n z i j : (i < n)%nat -> (j < n)%nat -> grid n (cf [(z, [N.of_nat i; N.of_nat j])]) = z * tv [N.of_nat i; N.of_nat j].
Proof.
  intros Hi Hj. unfold grid. rewrite <- (sumn_delta n i (fun _ => z * tv [N.of_nat i; N.of_nat j]) Hi). apply sumn_ext. intros i' _. destruct (Nat.eqb_spec i' i) as [->|Ni].
  - rewrite <- (sumn_delta n j (fun _ => z * tv [N.of_nat i; N.of_nat j]) Hj). apply sumn_ext. intros j' _. cbn [cf fst snd]. destruct (Nat.eqb_spec j' j) as [->|Nj]; destruct (mono_dec _ _) as [E|E]; try ring; [destruct E; reflexivity|]. injection E as E. apply Nat2N.inj in E. congruence.
  - apply sumn_zero_ext. intros j' _. cbn [cf fst snd]. destruct (mono_dec _ _) as [E|E]; [|ring]. injection E as E _. apply Nat2N.inj in E. congruence.
Qed.
Lemma grid_cf n f : (forall t, In t f -> exists i j, snd t = [N.of_nat i; N.of_nat j] /\ (i < n)%nat /\ (j < n)%nat) -> grid n (cf f) = fold_right (fun t s => fst t * tv (snd t) + s) 0 f.
Proof.
  induction f as [|[z u] f IH]; intros H; cbn [fold_right fst snd].
  - unfold grid. apply sumn_zero_ext. intros i _. apply sumn_zero_ext. intros j _. reflexivity.
  - rewrite <- IH by (intros t Ht; apply H; right; exact Ht). destruct (H (z, u) (or_introl eq_refl)) as (i & j & Eu & Hi & Hj). cbn [snd] in Eu. subst u. rewrite <- (grid_one n z i j Hi Hj). rewrite <- (Z.mul_1_l (grid n (cf [_]))). rewrite <- grid_add. unfold grid. apply sumn_ext. intros i' _. apply sumn_ext. intros j' _. f_equal. cbn [cf fst snd]. destruct (mono_dec _ _); ring.
Qed.
Lemma ideal_grid f : ideal 2 101 ex_G f -> exists N0, forall n, (N0 <= n)%nat -> eqp 101 (grid n f) 0.
Proof.
  intros H. induction H as [f Hf| |x f g _ [N1 IH1] _ [N2 IH2]|f g _ [N1 IH] E].
  - destruct Hf as (u & g & Lu & Hg & ->). destruct u as [|u0 [|u1 [|? ?]]]; try discriminate Lu.
    assert (K : forall l, (forall t, In t l -> exists y z, snd t = [y; z] /\ (y <= 2)%N /\ (z <= 2)%N) -> forall n, (N.to_nat u0 + N.to_nat u1 + 3 <= n)%nat -> eqp 101 (grid n (GbSpec.pmul [u0; u1] (cf l))) (fold_right (fun t s => fst t * tv [(u0 + nth 0 (snd t) 0)%N; (u1 + nth 1 (snd t) 0)%N] + s) 0 l)).
    { intros l Hl n Hn. rewrite (grid_ext n _ (cf (shift [u0; u1] l))).
      - rewrite grid_cf. + clear Hn. induction l as [|[z w] l IH]; [reflexivity|]. cbn [shift map fold_right fst snd]. fold (shift [u0; u1] l). rewrite IH by (intros t Ht; apply Hl; right; exact Ht). destruct (Hl (z, w) (or_introl eq_refl)) as (y & z' & E & _ & _). cbn [snd] in E. subst w. reflexivity.
        + intros t Ht. unfold shift in Ht. apply in_map_iff in Ht as ([z w] & <- & Hi). destruct (Hl _ Hi) as (y & z' & E & Hy & Hz). cbn [snd] in *. subst w. exists (N.to_nat (u0 + y)), (N.to_nat (u1 + z')). rewrite !N2Nat.id. split; [reflexivity|]. lia.
      - intros m Hm. rewrite cf_shift with (nv := 2%nat); [reflexivity|reflexivity| |exact Hm]. intros t Ht. destruct (Hl t Ht) as (y & z & E & _). exact (f_equal (@length N) E). }
    exists (N.to_nat u0 + N.to_nat u1 + 3)%nat. intros n Hn. destruct Hg as [->| ->].
    + rewrite K by (try exact Hn; intros t [<-|[<-|[]]]; eexists; eexists; (split; [reflexivity|lia])). cbn [ex_g1 fold_right fst snd nth]. unfold tv. cbn [nth]. replace (N.to_nat (2 * (u0 + 1) + (u1 + 0))) with (N.to_nat (2 * (u0 + 0) + (u1 + 2))) by lia. exists 0. ring.
    + rewrite K by (try exact Hn; intros t [<-|[<-|[<-|[]]]]; eexists; eexists; (split; [reflexivity|lia])). cbn [ex_g2 fold_right fst snd nth]. unfold tv. cbn [nth]. set (k := N.to_nat (2 * u0 + u1)). replace (N.to_nat (2 * (u0 + 1) + (u1 + 1))) with (3 + k)%nat by (unfold k; lia). replace (N.to_nat (2 * (u0 + 0) + (u1 + 1))) with (1 + k)%nat by (unfold k; lia). replace (N.to_nat (2 * (u0 + 0) + (u1 + 0))) with k by (unfold k; lia). rewrite rec3_step. exists 0. ring.
  - exists 0%nat. intros n _. unfold grid, pzero. rewrite (sumn_zero_ext n); [reflexivity|]. intros i _. apply sumn_zero_ext. intros j _. reflexivity.
  - exists (N1 + N2)%nat. intros n Hn. rewrite grid_add, IH1, IH2 by lia. exists 0. ring.
  - exists N1. intros n Hn. rewrite <- (IH n Hn). symmetry. apply grid_ext. exact E.
Qed.
End Fun.
Example ex_independent : independent 2 101 ex_G 3 ex_b.
Proof.
  intros c H. assert (K : forall x y z, eqp 101 (c 0%nat * x + c 1%nat * y + c 2%nat * z) 0).
  { intros x y z. destruct (ideal_grid x y z _ H) as (N0 & G). specialize (G (N0 + 3)%nat ltac:(lia)). rewrite <- G. rewrite (grid_ext x y z _ _ (cf [(c 0%nat, [N.of_nat 0; N.of_nat 0]); (c 1%nat, [N.of_nat 0; N.of_nat 1]); (c 2%nat, [N.of_nat 1; N.of_nat 0])])).
    - rewrite grid_cf by (intros t [<-|[<-|[<-|[]]]]; eexists; eexists; (split; [reflexivity|lia])). cbn [fold_right fst snd]. unfold tv. cbn [nth]. change (rec3 x y z (N.to_nat (2 * N.of_nat 0 + N.of_nat 0))) with x. change (rec3 x y z (N.to_nat (2 * N.of_nat 0 + N.of_nat 1))) with y. change (rec3 x y z (N.to_nat (2 * N.of_nat 1 + N.of_nat 0))) with z. exists 0. ring.
    - intros m _. cbn [sumn ex_b cf fst snd]. change [N.of_nat 0; N.of_nat 0] with [0; 0]%N. change [N.of_nat 0; N.of_nat 1] with [0; 1]%N. change [N.of_nat 1; N.of_nat 0] with [1; 0]%N. exists 0. destruct (mono_dec [0; 0]%N m), (mono_dec [0; 1]%N m), (mono_dec [1; 0]%N m); ring. }
  intros j Hj. destruct j as [|[|[|?]]]; [| | |lia].
  - specialize (K 1 0 0). rewrite !Z.mul_0_r, Z.mul_1_r, !Z.add_0_r in K. exact K.
  - specialize (K 0 1 0). rewrite !Z.mul_0_r, Z.mul_1_r, Z.add_0_r, Z.add_0_l in K. exact K.
  - specialize (K 0 0 1). rewrite !Z.mul_0_r, Z.mul_1_r, !Z.add_0_l in K. exact K.
Qed.
(** a test of squarefreeness meeting the contract: trial division by the squares of all monic polynomials *)
Fixpoint all_lists (p : Z) (n : nat) : list (list Z) :=
  match n with O => [[]] | S k => flat_map (fun l => map (fun c => Z.of_nat c :: l) (seq 0 (Z.to_nat p))) (all_lists p k) end.
Definition ex_divides (p : Z) (a b : list Z) : bool := match ndivrem p b a with Some (_, []) => true | _ => false end.
Definition ex_sqf (p : Z) (f : list Z) : bool :=
  forallb (fun d => forallb (fun g => negb (ex_divides p (nmul p (g ++ [1]) (g ++ [1])) f)) (all_lists p d)) (seq 1 ((length f - 1) / 2)).
Definition ex_sqpart (p : Z) (f : list Z) : list Z := if ex_sqf p f then f else [1].
Lemma all_lists_in p : 0 < p -> forall n l, In l (all_lists p n) <-> length l = n /\ forall c, In c l -> 0 <= c < p.
Proof.
  intros Hp. induction n as [|n IH]; intros l; cbn [all_lists].
  - split; [intros [<-|[]]; split; [reflexivity|intros c []]|]. intros [E _]. destruct l; [left; reflexivity|discriminate].
  - rewrite in_flat_map. split.
    + intros (l' & Hl & H). apply in_map_iff in H as (c & <- & Hc). apply in_seq in Hc. apply IH in Hl as [E R]. split; [cbn [length]; congruence|]. intros x [<-|Hx]; [lia|apply R; exact Hx].
    + intros [E R]. destruct l as [|c l]; [discriminate|]. exists l. split; [apply IH; split; [cbn [length] in E; lia|intros x Hx; apply R; right; exact Hx]|]. apply in_map_iff. exists (Z.to_nat c). specialize (R c (or_introl eq_refl)). split; [f_equal; lia|apply in_seq; lia].
Qed.
Lemma ex_divides_ok p a b n : prime p -> nf p a -> nf p b -> hdeg p a n -> ex_divides p a b = true <-> pdvd p a b.
Proof.
  intros Hp Ha Hb Da. unfold ex_divides. destruct (ndivrem_ok p Hp b a n Hb Ha Da) as (q & r & -> & E & Dr & _ & Nr). split.
  - destruct r; [|discriminate]. intros _. exists q. intros i. rewrite (E i). rewrite pc_padd, pc_nil. exists 0. ring.
  - intros (c & Ec). destruct (div_unique p Hp q c a n r [] Da Dr (dlt_nil p n)) as [_ K]; [intros i; rewrite <- (E i), (Ec i), pc_padd, pc_nil; exists 0; ring|]. apply (nf_zero p Hp) in K; [|exact Nr]. rewrite K. reflexivity.
Qed.
Lemma sq_scal p c e h : peq p (pmul c (pmul (pmul e h) (pmul e h))) (pmul (pmul (pmul e e) c) (pmul h h)).
Proof.
  rewrite <- (pmul_assoc p e h (pmul e h)), (pmul_assoc p h e h), (pmul_comm p h e), <- (pmul_assoc p e h h), (pmul_assoc p e e). rewrite (pmul_assoc p c), (pmul_comm p c). reflexivity.
Qed.
Lemma ex_sqf_ok p f k : prime p -> monic_of_degree p f k -> ex_sqf p f = true <-> squarefree p f.
Proof.
  intros Hp Mf. pose proof (p2 p Hp) as P2. destruct (nf_of_monic p Hp _ _ Mf) as [Nf Df]. unfold ex_sqf.
  assert (MG : forall d g, In g (all_lists p d) -> hdeg p (g ++ [1]) d /\ hdeg p (nmul p (g ++ [1]) (g ++ [1])) (d + d)).
  { intros d g Hg. apply (all_lists_in p ltac:(lia)) in Hg as [Lg Rg]. assert (M : monic_of_degree p (g ++ [1]) d). { split; [rewrite app_length; cbn [length]; lia|]. split; [rewrite app_nth2 by lia; rewrite Lg, Nat.sub_diag; reflexivity|]. intros c Hc. apply in_app_or in Hc as [Hc|[<-|[]]]; [apply Rg; exact Hc|lia]. }
    destruct (nf_of_monic p Hp _ _ M) as [_ DM]. split; [exact DM|]. pose proof (hdeg_mul p Hp _ _ _ _ DM DM) as [K1 K2]. split; [intros i Hi; rewrite (nmul_peq p Hp (g ++ [1]) (g ++ [1]) i); apply K1; exact Hi|rewrite (nmul_peq p Hp (g ++ [1]) (g ++ [1]) (d + d)%nat); exact K2]. }
  split.
  - intros H g (c & Ec). destruct (deg_cases p Hp g) as [Z0|(n & Dn)].
    + exfalso. apply (hdeg_nz p _ _ Df). rewrite Ec. rewrite (pmul_comm p c). apply pmul_zero_l. apply pmul_zero_l. exact Z0.
    + destruct n as [|n]; [exact Dn|exfalso].
      assert (D2 : hdeg p (pmul c (pmul g g)) k). { destruct Df as [A1 A2]. split; [intros i Hi; rewrite <- (Ec i); apply A1; exact Hi|rewrite <- (Ec k); exact A2]. }
      pose proof D2 as D3. apply (hdeg_factor p Hp) in D3 as (i & j & Dc & Dj & Ek). pose proof (hdeg_uniq p _ _ _ Dj (hdeg_mul p Hp _ _ _ _ Dn Dn)) as Ej.
      assert (NG : hdeg p (norm p g) (S n)). { destruct Dn as [A1 A2]. split; [intros z Hz; rewrite (norm_peq p Hp g z); apply A1; exact Hz|rewrite (norm_peq p Hp g (S n)); exact A2]. }
      destruct (nmonic_ok p Hp (norm p g) (S n) (nf_norm p Hp g) NG) as (h & _ & Nh & Eh & _ & Dh & Th & Lh). set (z := zinv p (pc (norm p g) (S n))) in *.
      assert (Hz : eqp p (z * pc g (S n)) 1). { rewrite <- (norm_peq p Hp g (S n)). apply (zinv_ok p Hp). exact (proj2 NG). }
      destruct (exists_last (l := h)) as (h0 & x & Ex); [intros ->; discriminate|]. assert (x = 1). { rewrite Ex in Th. unfold pc in Th. rewrite Ex, app_length in Lh. cbn [length] in Lh. rewrite app_nth2 in Th by lia. replace (S n - length h0)%nat with 0%nat in Th by lia. exact Th. } subst x.
      assert (Ih : In h0 (all_lists p (S n))). { apply (all_lists_in p ltac:(lia)). split; [rewrite Ex, app_length in Lh; cbn [length] in Lh; lia|]. intros y Hy. apply (nf_range p Hp h Nh). rewrite Ex. apply in_or_app. left. exact Hy. }
      assert (Is : In (S n) (seq 1 ((length f - 1) / 2))). { apply in_seq. rewrite (proj1 Mf). split; [lia|]. assert (S n + S n <= k)%nat by lia. replace (S k - 1)%nat with k by lia. assert (S n <= k / 2)%nat by (apply Nat.div_le_lower_bound; lia). lia. }
      apply forallb_forall with (x := S n) in H; [|exact Is]. apply forallb_forall with (x := h0) in H; [|exact Ih]. apply negb_true_iff in H. rewrite <- Ex in H. destruct (MG (S n) h0 Ih) as [_ D4]. rewrite <- Ex in D4.
      assert (T : ex_divides p (nmul p h h) f = true); [|congruence]. apply (ex_divides_ok p _ _ _ Hp (nf_norm p Hp _) Nf D4). exists (pscal (pc g (S n) * pc g (S n)) c).
      rewrite (norm_peq p Hp (pmul h h)). rewrite Ec. assert (Eg : peq p g (pscal (pc g (S n)) h)). { intros y. rewrite pc_pscal, (Eh y), pc_pscal, (norm_peq p Hp g y). destruct Hz as [w Hw]. exists (- w * pc g y). transitivity (pc g y * - (z * pc g (S n) - 1)); [ring|rewrite Hw; ring]. }
      set (e := pc g (S n)) in *. rewrite Eg. rewrite (pscal_pmul p e h), (pscal_pmul p (e * e) c). assert (E2 : peq p [e * e] (pmul [e] [e])) by (apply peq_ext; intros [|[|y]]; unfold pc; cbn; lia). rewrite E2. generalize [e]. intros ee. apply sq_scal.
  - intros SF. apply forallb_forall. intros d Hd%in_seq. apply forallb_forall. intros g Hg. destruct (MG d g Hg) as [D1 D2]. apply negb_true_iff. destruct (ex_divides p _ f) eqn:E; [exfalso|reflexivity].
    apply (ex_divides_ok p _ _ _ Hp (nf_norm p Hp _) Nf D2) in E. assert (K : hdeg p (g ++ [1]) 0). { apply SF. destruct E as (c & Ec). exists c. rewrite Ec. rewrite (norm_peq p Hp (pmul (g ++ [1]) (g ++ [1]))). reflexivity. }
    pose proof (hdeg_uniq p _ _ _ D1 K). lia.
Qed.
Example ex_contract p : prime p -> sqf_contract p (ex_sqf p) (ex_sqpart p).
Proof.
  intros Hp f k Mf. split; [apply (ex_sqf_ok p f (S k) Hp Mf)|]. unfold ex_sqpart. destruct Mf as [L _]. destruct (ex_sqf p f); cbn [length]; split; intros; try discriminate; lia.
Qed.
(** both kernels, two vectors: x1^3 - 2 x1 - 3 and x0 - x1^2 *)
Example C58_ex : fglm Scalar 101 (ex_sqf 101) (ex_sqpart 101) ex_m (fun _ _ => 0) 2 2 (fun _ => false) [] [1; 5; 7] [0; 0; 0] = Some (Param [98; 99; 0; 1] [[0; 0; 100]]) /\
  fglm Avx 101 (ex_sqf 101) (ex_sqpart 101) ex_m (fun _ _ => 17) 2 2 (fun _ => false) [] [100; 0; 33] [4; 4; 4] = Some (Param [98; 99; 0; 1] [[0; 0; 100]]).
Proof. split; vm_compute; reflexivity. Qed.
(** with one more variable, x0 + 4 x1 + 5 x2 + 6 = 0 linear (the variables above are now x1, x2) *)
Example C58_linear_ex : fglm Avx 101 (ex_sqf 101) (ex_sqpart 101) ex_m (fun _ _ => 0) 3 2 (fun k => (k =? 0)%nat) [[1; 4; 5; 6]] [1; 5; 7] [0; 0; 0] = Some (Param [98; 99; 0; 1] [[6; 5; 4]; [0; 0; 100]]).
Proof. vm_compute. reflexivity. Qed.
(** a vector for which the sequence is too short *)
Example C58_notshape_ex : fglm Avx 101 (ex_sqf 101) (ex_sqpart 101) ex_m (fun _ _ => 0) 2 2 (fun _ => false) [] [0; 0; 0] [0; 0; 0] = Some NotShape.
Proof. vm_compute. reflexivity. Qed.
(** the point x0 = -5, x1 = -4, given by two linear forms: one basis monomial, multiplication by -4 *)
Definition ex_m1 : sp_mat := {| m_ncols := 1; m_nrows := 1; m_dense := [97]; m_triv_idx := []; m_triv_pos := []; m_dense_idx := [0%nat]; m_dst := [0%nat] |}.
Example ex_represents1 : represents 101 ex_m1 (fun _ _ => 97).
Proof.
  constructor; cbn [ex_m1 m_ncols m_nrows m_dense m_triv_idx m_triv_pos m_dense_idx m_dst length Nat.sub Nat.mul Nat.add app]; try lia; try reflexivity.
  - intros c [<-|[]]; lia.
  - repeat constructor; cbn [In]; lia.
  - intros i [<-|[]]; lia.
  - intros i [].
  - intros r j Hr Hj. assert (r = 0%nat) by lia. assert (j = 0%nat) by lia. subst. reflexivity.
  - intros r j Hr Hj. assert (r = 0%nat) by lia. subst. cbn [nth] in Hj. lia.
  - intros r Hr. assert (r = 0%nat) by lia. subst. cbn [nth]. lia.
Qed.
Definition ex_G1 (f : pf) : Prop := f = linear_form 2 [1; 0; 5] \/ f = linear_form 2 [0; 1; 4].
Example ex_rows1 : Forall2 (linear_row 2 101 ex_G1) (seq 0 2) [[1; 0; 5]; [0; 1; 4]].
Proof.
  constructor; [|constructor; [|constructor]].
  - split; [reflexivity|]. split; [intros c [<-|[<-|[<-|[]]]]; lia|]. split; [intros k Hk; lia|]. split; [reflexivity|]. apply ideal_gen. left. reflexivity.
  - split; [reflexivity|]. split; [intros c [<-|[<-|[<-|[]]]]; lia|]. split; [intros k Hk; assert (k = 0%nat) by lia; subst; reflexivity|]. split; [reflexivity|]. apply ideal_gen. right. reflexivity.
Qed.
Example C58_one_ex : fglm Avx 101 (ex_sqf 101) (ex_sqpart 101) ex_m1 (fun _ _ => 0) 2 0 (fun _ => true) [[1; 0; 5]; [0; 1; 4]] [17] [0] = Some (Param [4; 1] [[5]]).
Proof. vm_compute. reflexivity. Qed.
(** x1 + 4 = 0 and x0^2 = 2: x1 is leading in a linear form and the multiplication by x1 is a scalar *)
Definition ex_m2 : sp_mat := {| m_ncols := 2; m_nrows := 2; m_dense := [97; 0; 0; 97]; m_triv_idx := []; m_triv_pos := []; m_dense_idx := [0; 1]%nat; m_dst := [1; 0]%nat |}.
Example C58_scalar_ex : fglm Avx 101 (ex_sqf 101) (ex_sqpart 101) ex_m2 (fun _ _ => 0) 2 1 (fun _ => false) [[0; 1; 4]] [17; 3] [0; 0] = Some NotShape.
Proof. vm_compute. reflexivity. Qed.
