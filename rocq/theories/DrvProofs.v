(** The whole computation over a prime field: proofs. *)
From Coq Require Import ZArith NArith Arith String List Bool Lia Permutation Sorting.Sorted Znumtheory Ring_theory Ring InitialRing.
From Verif Require Import MonoSpec MonoModel MonoProofs MonoCmpProofs GbSpec F4Model RoundProofs LinSpec PointSpec PointProofs ModInvModel InputSpec InputModel InputProofs InputRunProofs ImportModel ImportProofs ImportProps NsModel NsStep DrvModel.
Import ListNotations.
Open Scope Z_scope.
Notation length := List.length.

(** ** Systems that are imported as they are *)
(** Coefficients fit in 32 bits, are not smaller than -p and not 0 modulo p; exponents fit in 16 bits; every monomial occurs once in a polynomial. *)
Definition term_ok (p : Z) (n : nat) (t : iterm) : Prop :=
  (- 2 ^ 31 <= fst (fst t) < 2 ^ 31 /\ - p <= fst (fst t) /\ ~ (p | fst (fst t))) /\ length (snd t) = n /\ Forall (fun x => 0 <= x < 2 ^ 16) (snd t).
Definition ipoly_ok (p : Z) (n : nat) (f : ipoly) : Prop := f <> [] /\ Forall (term_ok p n) f /\ NoDup (map snd f).
Definition sys_ok (p : Z) (n : nat) (s : isys) : Prop := s <> [] /\ Forall (ipoly_ok p n) s.
Lemma sys_ok_wf p n s : sys_ok p n s -> sys_wf n s.
Proof. intros [_ H] f Hf t Ht. rewrite Forall_forall in H. destruct (H f Hf) as (_ & H1 & _). rewrite Forall_forall in H1. apply (H1 t Ht). Qed.

Lemma map_nodup {A B} (f : A -> B) l : (forall a b, In a l -> In b l -> f a = f b -> a = b) -> NoDup l -> NoDup (map f l).
Proof.
  intros H. induction 1 as [|a l N ND IH]; cbn; constructor.
  - intros C. apply in_map_iff in C as (b & E & Hb). apply N. rewrite (H a b); [exact Hb|now left|now right|now symmetry].
  - apply IH. intros x y Hx Hy. apply H; now right.
Qed.
Lemma map_snd_map (f : list Z -> list Z) (q : ipoly) : map snd (map (fun t : iterm => (fst t, f (snd t))) q) = map f (map snd q).
Proof. rewrite !map_map. reflexivity. Qed.
Lemma swp_ok p n a b s : (a < n)%nat -> (b < n)%nat -> sys_ok p n s -> sys_ok p n (sw_sys a b s).
Proof.
  intros Ha Hb [NE H]. split; [destruct s; [contradiction|discriminate]|]. unfold sw_sys. apply Forall_forall. intros f Hf. apply in_map_iff in Hf as (q & <- & Hq). rewrite Forall_forall in H. destruct (H q Hq) as (N1 & T & ND).
  rewrite Forall_forall in T. assert (LT : forall e, In e (map snd q) -> length e = n) by (intros e He; apply in_map_iff in He as (t & <- & Ht); apply (T t Ht)).
  split; [destruct q; [contradiction|discriminate]|]. split.
  - apply Forall_forall. intros t Ht. apply in_map_iff in Ht as (u & <- & Hu). destruct (T u Hu) as (C & L & E). unfold term_ok. cbn [fst snd]. split; [exact C|]. split; [rewrite sw_len by lia; exact L|].
    destruct (sw_ok a b (snd u) ltac:(lia) ltac:(lia)) as [_ TR]. apply transposed_perm in TR; [|lia|lia]. apply (Permutation_Forall TR). exact E.
  - rewrite map_snd_map. apply map_nodup; [|exact ND]. intros x y Hx Hy E. rewrite <- (sw_inv a b x), <- (sw_inv a b y) by (rewrite LT by assumption; lia). now rewrite E.
Qed.
Lemma ext_ok p n s : sys_ok p n s -> sys_ok p (S n) (ext_sys s).
Proof.
  intros [NE H]. split; [destruct s; [contradiction|discriminate]|]. unfold ext_sys. apply Forall_forall. intros f Hf. apply in_map_iff in Hf as (q & <- & Hq). rewrite Forall_forall in H. destruct (H q Hq) as (N1 & T & ND).
  rewrite Forall_forall in T. split; [destruct q; [contradiction|discriminate]|]. split.
  - apply Forall_forall. intros t Ht. apply in_map_iff in Ht as (u & <- & Hu). destruct (T u Hu) as (C & L & E). unfold term_ok, ext_term. cbn [fst snd]. split; [exact C|]. split; [rewrite app_length; cbn; lia|].
    apply Forall_app. split; [exact E|]. constructor; [lia|constructor].
  - unfold ext_term. rewrite (map_snd_map (fun e => e ++ [0])). apply map_nodup; [|exact ND]. intros x y _ _ E. apply app_inj_tail in E. apply E.
Qed.
(** coefficients of a linear form that is imported as it is *)
Definition form_ok (p : Z) (cs : list coef) : Prop := cs <> [] /\ Forall (fun c => - 2 ^ 31 <= fst c < 2 ^ 31 /\ - p <= fst c /\ ~ (p | fst c)) cs.
Lemma unit_exp_inj n i j : (i < n)%nat -> unit_exp n i = unit_exp n j -> i = j.
Proof.
  intros Hi E. assert (Q : forall k, nth_error (unit_exp n k) i = Some (if Nat.eqb i k then 1 else 0)).
  { intros k. unfold unit_exp. apply (map_nth_error (fun j => if Nat.eqb j k then 1 else 0)). rewrite (nth_error_nth' (seq 0 n) 0%nat) by (rewrite seq_length; exact Hi). now rewrite seq_nth. }
  pose proof (Q i) as Q1. rewrite E, (Q j), Nat.eqb_refl in Q1. destruct (Nat.eqb_spec i j); [assumption|discriminate].
Qed.
Lemma linear_ok p cs : form_ok p cs -> ipoly_ok p (length cs) (linear_form cs).
Proof.
  intros [NE H]. unfold linear_form. set (n := length cs). assert (L : length cs = length (map (unit_exp n) (seq 0 n))) by (rewrite map_length, seq_length; reflexivity). split.
  - destruct cs; [contradiction|]. discriminate.
  - split.
    + apply Forall_forall. intros [c e] Ht. pose proof (in_combine_l _ _ _ _ Ht) as Hc. pose proof (in_combine_r _ _ _ _ Ht) as He. rewrite Forall_forall in H. split; [exact (H c Hc)|]. apply in_map_iff in He as (i & <- & _).
      cbn [snd]. split; [apply unit_exp_len|]. apply Forall_forall. intros x Hx. unfold unit_exp in Hx. apply in_map_iff in Hx as (j & <- & _). destruct (_ =? _)%nat; lia.
    + replace (map snd (combine cs (map (unit_exp n) (seq 0 n)))) with (map (unit_exp n) (seq 0 n)).
      * apply map_nodup; [|apply seq_NoDup]. intros i j Hi Hj. apply unit_exp_inj. apply in_seq in Hi. lia.
      * revert L. generalize (map (unit_exp n) (seq 0 n)). clear. induction cs as [|c cs IH]; intros [|e l] L; try discriminate; [reflexivity|]. cbn. f_equal. apply IH. cbn in L. lia.
Qed.
Lemma form_sys p n s cs : sys_ok p n s -> length cs = S n -> form_ok p cs -> sys_ok p (S n) (ext_sys s ++ [linear_form cs]).
Proof.
  intros H L F. destruct (ext_ok p n s H) as [NE E]. split; [destruct (ext_sys s); [contradiction|discriminate]|]. apply Forall_app. split; [exact E|]. constructor; [|constructor]. rewrite <- L. apply linear_ok. exact F.
Qed.

(** ** Import *)
Definition to_gen (f : ipoly) : list (Z * mono) := map (fun t => (fst (fst t), to_mono (snd t))) f.
Lemma chunks_ok n : forall ms rest, (forall m, In m ms -> length m = n) -> chunks (length ms) n (concat ms ++ rest) = Some ms.
Proof.
  induction ms as [|m ms IH]; intros rest H; [reflexivity|]. cbn [length chunks concat]. rewrite <- app_assoc. unfold slice. pose proof (H m (or_introl eq_refl)) as Lm. cbn [Nat.add skipn].
  replace (n <=? length (m ++ concat ms ++ rest))%nat with true by (symmetry; apply Nat.leb_le; rewrite app_length; lia). cbn [obind].
  assert (E1 : firstn n (m ++ concat ms ++ rest) = m) by (rewrite <- Lm, firstn_app, firstn_all, Nat.sub_diag; cbn; apply app_nil_r).
  assert (E2 : skipn n (m ++ concat ms ++ rest) = concat ms ++ rest) by (rewrite <- Lm, skipn_app, skipn_all, Nat.sub_diag; reflexivity).
  rewrite E1, E2, IH by (intros; apply H; now right). reflexivity.
Qed.
Lemma to_mono_inj : forall e e', Forall (fun x => 0 <= x < 2 ^ 16) e -> Forall (fun x => 0 <= x < 2 ^ 16) e' -> to_mono e = to_mono e' -> e = e'.
Proof.
  induction e as [|x e IH]; intros [|y e'] H H' E; try discriminate; [reflexivity|]. inversion H; subst. inversion H'; subst. cbn in E. injection E as E1 E2. f_equal; [|apply IH; assumption].
  rewrite !Z.mod_small in E1 by lia. apply (f_equal Z.of_N) in E1. rewrite !Z2N.id in E1 by lia. exact E1.
Qed.
Lemma map_snd_combine {A B} (l : list A) : forall (m : list B), length l = length m -> map snd (combine l m) = m.
Proof. induction l as [|a l IH]; intros [|b m] L; try discriminate; [reflexivity|]. cbn. now rewrite IH by (cbn in L; lia). Qed.
Lemma imported_sorted o p f row : o_ok o -> (o_nev o <> 0 \/ o_mo o <> 1)%nat -> 1 < p -> ipoly_ok p (o_nv o) f -> imported p (gens_le o) (to_gen f) row -> sorted_poly (o_nv o) (o_lt o) p (combine (fst row) (snd row)).
Proof.
  intros OK OM P (NE & T & ND) IM. rewrite Forall_forall in T.
  assert (HL : forall t, In t (to_gen f) -> length (snd t) = o_nv o). { intros t Ht. apply in_map_iff in Ht as (u & <- & Hu). cbn [snd]. unfold to_mono. rewrite map_length. apply (T u Hu). }
  assert (NDG : NoDup (map snd (to_gen f))).
  { unfold to_gen. rewrite map_map. cbn [snd]. rewrite <- (map_map snd to_mono). apply map_nodup; [|exact ND]. intros x y Hx Hy E. apply in_map_iff in Hx as (t & <- & Ht). apply in_map_iff in Hy as (u & <- & Hu). apply to_mono_inj; [apply (T t Ht)|apply (T u Hu)|exact E]. }
  pose proof (C51_decreasing o p (to_gen f) row OK OM HL NDG IM) as SS. destruct IM as (L1 & L2 & PE & _). assert (LL : length (fst row) = length (snd row)) by congruence.
  assert (LF : length (to_gen f) = length f) by apply map_length. split; [|split].
  - intros E. apply (f_equal (@length _)) in E. rewrite combine_length in E. destruct f; [contradiction|]. cbn in *. lia.
  - intros t Ht. apply (Permutation_in _ PE) in Ht. apply in_map_iff in Ht as (u & <- & Hu). split; [|exact (HL u Hu)]. cbn [fst]. apply in_map_iff in Hu as (w & <- & Hw). cbn [fst]. destruct (T w Hw) as ((_ & _ & ND1) & _).
    pose proof (Z.mod_pos_bound (fst (fst w)) p ltac:(lia)). assert (fst (fst w) mod p <> 0) by (intros E; apply ND1; apply Z.mod_divide; [lia|exact E]). lia.
  - intros i j s t Hi Hj Hij. assert (Hi' : nth_error (snd row) i = Some (snd s)) by (rewrite <- (map_snd_combine (fst row) (snd row) LL); now apply map_nth_error). assert (Hj' : nth_error (snd row) j = Some (snd t)) by (rewrite <- (map_snd_combine (fst row) (snd row) LL); now apply map_nth_error).
    clear - SS Hi' Hj' Hij. revert i j Hi' Hj' Hij. induction SS as [|a l SS IH HF]; intros i j Hi Hj Hij; [destruct i; discriminate|]. destruct j as [|j]; [lia|]. cbn in Hj. destruct i as [|i].
    + cbn in Hi. injection Hi as ->. rewrite Forall_forall in HF. apply HF. eapply nth_error_In; eassumption.
    + cbn in Hi. apply (IH i j Hi Hj). lia.
Qed.

(** ** Values *)
Section Values.
Variables (K : Type) (k0 k1 : K) (add mul sub : K -> K -> K) (opp : K -> K) (p : Z).
Hypothesis RM : ring_mod K k0 k1 add mul sub opp p.
Let RK : ring_theory k0 k1 add mul sub opp eq := proj1 RM.
Add Ring Kr : RK.
Definition num (c : coef) : K := kz K k0 k1 add mul opp (fst c).
Lemma kpow_same x n : InputSpec.kpow k1 mul x n = PointSpec.kpow K k1 mul x n.
Proof. induction n; cbn; [reflexivity|]. now rewrite IHn. Qed.
Lemma mono_same : forall e a, Forall (fun x => 0 <= x < 2 ^ 16) e -> mono_val k1 mul (map a (seq 0 (length e))) e = mval K k1 mul a (to_mono e).
Proof.
  induction e as [|x e IH]; intros a H; [reflexivity|]. inversion H as [|? ? Hx He]; subst. cbn [length seq map mono_val to_mono mval]. rewrite Z.mod_small by lia. rewrite kpow_same. f_equal.
  - f_equal. rewrite Z_N_nat. reflexivity.
  - rewrite <- seq_shift, map_map. apply (IH (fun i => a (S i)) He).
Qed.
Lemma poly_same n f a : Forall (term_ok p n) f -> poly_val k0 k1 add mul num f (map a (seq 0 n)) = pval K k0 k1 add mul opp a (to_gen f).
Proof.
  induction 1 as [|t f (_ & L & E) _ IH]; [reflexivity|]. cbn [poly_val to_gen map pval fst snd]. rewrite IH. f_equal. unfold num. f_equal. rewrite <- L. apply mono_same. exact E.
Qed.
Lemma pval_perm a f g : Permutation f g -> pval K k0 k1 add mul opp a f = pval K k0 k1 add mul opp a g.
Proof. induction 1; cbn; [reflexivity|congruence|ring|congruence]. Qed.
Lemma pval_mod a f : pval K k0 k1 add mul opp a (map (fun t => (fst t mod p, snd t)) f) = pval K k0 k1 add mul opp a f.
Proof.
  induction f as [|t f IH]; [reflexivity|]. cbn [map pval fst snd]. rewrite IH. f_equal. f_equal. apply (kz_eqp K k0 k1 add mul sub opp p (proj1 RM) (proj2 RM)). unfold eqp. destruct (Z.eq_dec p 0) as [->|Np]; [rewrite Zmod_0_r; exists 0; lia|].
  exists (- (fst t / p)). pose proof (Z.div_mod (fst t) p Np). lia.
Qed.
Lemma imported_val o n f row a : ipoly_ok p n f -> imported p (gens_le o) (to_gen f) row -> pval K k0 k1 add mul opp a (combine (fst row) (snd row)) = poly_val k0 k1 add mul num f (map a (seq 0 n)).
Proof. intros (_ & T & _) (_ & _ & PE & _). rewrite (pval_perm a _ _ PE), pval_mod. symmetry. apply poly_same. exact T. Qed.
End Values.

(** ** The polynomials handed to the engine *)
Definition all_sorts (cf : nat -> config) (sorter : nat -> list mono -> list nat) : Prop := forall n l, (1 <= n)%nat -> Forall (fun m => length m = n) l -> sorts (gens_le (c_o (cf n))) (sorter n) l.
Record drv_ok (p : Z) (cf : nat -> config) (env : nat -> env2) (sorter : nat -> list mono -> list nat) : Prop := {
  do_p : 2 < p < 2 ^ 31;
  do_cfg : forall n, (1 <= n)%nat -> cfg_ok (cf n) /\ o_nv (c_o (cf n)) = n /\ o_nev (c_o (cf n)) = 0%nat /\ o_mo (c_o (cf n)) <> 1%nat /\ c_p (cf n) = p;
  do_env : forall i, env2_ok p (env i);
  do_sort : all_sorts cf sorter }.
Lemma engine_ok p cf env sorter g nm sg : drv_ok p cf env sorter -> rep g nm sg -> field_char g = p -> (1 <= nvars g)%nat -> sys_ok p (nvars g) sg ->
  exists F, engine_input sorter g = Some (1, F) /\ Forall2 (fun f h => exists row, imported p (gens_le (c_o (cf (nvars g)))) (to_gen f) row /\ h = combine (fst row) (snd row)) sg F.
Proof.
  intros D (R1 & R2 & R3 & R4 & R5 & R6) FC NV [NE SO]. set (n := nvars g) in *. set (o := c_o (cf n)). set (bs := flat_map (map (@snd coef (list Z))) sg).
  assert (Hb : forall b, In b bs -> length b = n). { intros b Hb. apply in_flat_map in Hb as (q & Hq & Hb). apply in_map_iff in Hb as (t & <- & Ht). exact (R3 q Hq t Ht). }
  assert (EC : chunks (sum_lens (lens g)) n (exps g) = Some bs).
  { rewrite R4, sum_lens_ok. fold bs. rewrite R5, flat_concat. fold bs. rewrite <- (app_nil_r (concat bs)). apply chunks_ok. exact Hb. }
  unfold engine_input. fold n. rewrite EC. cbn [obind]. rewrite FC. set (G := map to_gen sg). rewrite Forall_forall in SO.
  assert (E1 : lens g = lens_of G) by (rewrite R4; unfold lens_of, G; rewrite map_map; apply map_ext; intros f; unfold to_gen; now rewrite map_length).
  assert (E2 : map to_mono bs = mons_of G). { unfold mons_of, G, bs. rewrite flat_map_concat_map, concat_map, !map_map. f_equal. apply map_ext. intros f. unfold to_gen. rewrite !map_map. reflexivity. }
  assert (E3 : map fst (cfs g) = cfs_of G). { unfold cfs_of, G. rewrite R6, flat_map_concat_map, concat_map, !map_map. f_equal. apply map_ext. intros f. unfold to_gen. rewrite !map_map. reflexivity. }
  rewrite E1, E2, E3. destruct (C37_complete mono (gens_le o) (sorter n) p G (Z.of_nat n)) as (rows & EI & IM).
  - pose proof (do_p _ _ _ _ D). lia.
  - lia.
  - unfold G. destruct sg; [contradiction|discriminate].
  - intros f Hf. unfold G in Hf. apply in_map_iff in Hf as (q & <- & Hq). destruct (SO q Hq) as (_ & T & _). rewrite Forall_forall in T. split.
    + apply Forall_forall. intros t Ht. apply in_map_iff in Ht as (u & <- & Hu). cbn [fst]. destruct (T u Hu) as ((A & B & _) & _). exact (conj A B).
    + apply (do_sort _ _ _ _ D n); [exact NV|]. apply Forall_forall. intros m Hm. unfold to_gen in Hm. rewrite map_map in Hm. apply in_map_iff in Hm as (u & <- & Hu). cbn [snd]. unfold to_mono. rewrite map_length. apply (T u Hu).
  - intros f t Hf Ht. unfold G in Hf. apply in_map_iff in Hf as (q & <- & Hq). apply in_map_iff in Ht as (u & <- & Hu). cbn [fst]. destruct (SO q Hq) as (_ & T & _). rewrite Forall_forall in T. destruct (T u Hu) as ((_ & _ & C) & _). intros E. apply C. exists 0. exact E.
  - rewrite EI. cbn [obind fst snd]. eexists. split; [reflexivity|]. unfold G in IM. clear - IM. revert rows IM. induction sg as [|f sg IH]; intros rows IM; inversion IM; subst; constructor; [eauto|]. apply IH. assumption.
Qed.
Lemma engine_sorted p cf env sorter g nm sg F : drv_ok p cf env sorter -> rep g nm sg -> field_char g = p -> (1 <= nvars g)%nat -> sys_ok p (nvars g) sg -> engine_input sorter g = Some (1, F) ->
  Forall (sorted_poly (nvars g) (o_lt (c_o (cf (nvars g)))) p) F.
Proof.
  intros D R FC NV SO EF. destruct (engine_ok p cf env sorter g nm sg D R FC NV SO) as (F' & E & H). assert (F' = F) by congruence. subst F'. destruct SO as [_ SO].
  destruct (do_cfg _ _ _ _ D (nvars g) NV) as (CK & EN & E0 & E1 & EP). clear - H SO CK EN E0 E1 D. induction H as [|f h sg F (row & IM & ->) H IH]; constructor.
  - inversion SO; subst. rewrite <- EN at 1. apply (imported_sorted _ p f row); [apply (ck_o _ CK)|now right| |rewrite EN; assumption|exact IM]. pose proof (do_p _ _ _ _ D). lia.
  - apply IH. now inversion SO.
Qed.
Lemma engine_zero p cf env sorter g nm sg F K k0 k1 add mul sub opp a : drv_ok p cf env sorter -> rep g nm sg -> field_char g = p -> (1 <= nvars g)%nat -> sys_ok p (nvars g) sg -> engine_input sorter g = Some (1, F) ->
  ring_mod K k0 k1 add mul sub opp p -> zero_of K k0 k1 add mul opp F a <-> solves k0 k1 add mul (num K k0 k1 add mul opp) sg (map a (seq 0 (nvars g))).
Proof.
  intros D R FC NV SO EF RM. destruct (engine_ok p cf env sorter g nm sg D R FC NV SO) as (F' & E & H). assert (F' = F) by congruence. subst F'. destruct SO as [_ SO]. unfold zero_of, solves. clear - H SO RM.
  induction H as [|f h sg F (row & IM & ->) H IH]; [split; intros _ x []|]. inversion SO as [|? ? S1 S2]; subst. pose proof (imported_val K k0 k1 add mul sub opp p RM _ _ f row a S1 IM) as V. specialize (IH S2). split.
  - intros Z0 q [<-|Hq]; [rewrite <- V; apply Z0; now left|]. apply (proj1 IH); [intros x Hx; apply Z0; now right|exact Hq].
  - intros Z0 q [<-|Hq]; [rewrite V; apply Z0; now left|]. apply (proj2 IH); [intros x Hx; apply Z0; now right|exact Hq].
Qed.

(** ** The attempts *)
Definition good (p : Z) (names : list string) (s : isys) (n : nat) (g : gens) : Prop :=
  state_ok n names s p g /\ (0 < linear_form_base_coef g -> exists cs, with_form g names s cs /\ form_ok p cs).
Lemma unit_form p v : 2 < p < 2 ^ 31 -> unit_coef p v -> - 2 ^ 31 <= v < 2 ^ 31 /\ - p <= v /\ ~ (p | v).
Proof.
  intros P (N0 & U). specialize (U ltac:(lia)). assert (A : Z.abs v < p) by (destruct U as [->|U]; [cbn; lia|exact U]). split; [lia|]. split; [lia|]. intros (q & E). assert (q <> 0) by (intros ->; lia). assert (1 <= Z.abs q) by lia.
  rewrite E, Z.abs_mul in A. rewrite (Z.abs_eq p) in A by lia. nia.
Qed.
Lemma power_form p e n : prime p -> 2 < p < 2 ^ 31 -> Z.of_nat n < p -> 0 <= e -> form_ok p (power_coefs p e n).
Proof.
  intros PR P N E. split; [intros C; apply app_eq_nil in C as [_ C]; discriminate|]. unfold power_coefs. replace (0 <? p) with true by (symmetry; apply Z.ltb_lt; lia). apply Forall_app. split.
  - apply Forall_forall. intros c Hc. apply in_map_iff in Hc as (j & <- & Hj). apply in_seq in Hj. cbn [fst]. assert (NN : 0 <= (1 + Z.of_nat j) ^ e) by (apply Z.pow_nonneg; lia). rewrite Z.rem_mod_nonneg by lia.
    pose proof (Z.mod_pos_bound ((1 + Z.of_nat j) ^ e) p ltac:(lia)). split; [lia|]. split; [lia|]. intros DV. assert (D1 : (p | (1 + Z.of_nat j) ^ e)).
    { destruct DV as (q & Eq). exists (q + (1 + Z.of_nat j) ^ e / p). rewrite Z.mul_add_distr_r, <- Eq. pose proof (Z.div_mod ((1 + Z.of_nat j) ^ e) p ltac:(lia)). lia. }
    clear - PR D1 N E Hj P. revert D1. pattern e. apply natlike_ind; [|clear e E; intros e E IH D1|exact E].
    + intros D1. rewrite Z.pow_0_r in D1. apply Z.divide_1_r_nonneg in D1; lia.
    + rewrite Z.pow_succ_r in D1 by exact E. apply prime_mult in D1; [|exact PR]. destruct D1 as [D1|D1]; [|exact (IH D1)]. apply Z.divide_pos_le in D1; lia.
  - constructor; [|constructor]. cbn [fst]. split; [lia|]. split; [lia|]. intros D1. apply Z.divide_1_r_nonneg in D1; lia.
Qed.
Lemma handle_good p names s n gh o g rnd g' rest : prime p -> 2 < p < 2 ^ 31 -> Z.of_nat n < p -> (0 < n)%nat -> length names = n -> sys_wf n s -> good p names s n g -> handle gh o g rnd = Some (true, g', rest) -> good p names s n g'.
Proof.
  intros PR P N Hn Hl Hw [S1 _] H. destruct (handle_ok n names s p gh o g rnd true g' rest Hn Hl Hw S1 H eq_refl) as (S2 & HS & HT). split; [exact S2|]. intros LB. destruct o.
  - destruct (HT eq_refl) as (_ & W). eexists. split; [exact (W LB)|]. apply power_form; try assumption. lia.
  - destruct (HS eq_refl) as (_ & W & U). eexists. split; [exact W|]. split.
    + destruct W as [_ L]. destruct S2 as [_ [(Q & _)|(_ & Q & _)]]; [lia|]. intros C. rewrite C in L. cbn in L. lia.
    + unfold random_coefs. apply Forall_forall. intros c Hc. apply in_map_iff in Hc as (v & <- & Hv). rewrite Forall_forall in U. cbn [fst]. apply unit_form; [exact P|exact (U v Hv)].
Qed.
Lemma good_sys p names s n g : (0 < n)%nat -> sys_ok p n s -> good p names s n g -> exists nm sg, rep g nm sg /\ field_char g = p /\ (1 <= nvars g)%nat /\ sys_ok p (nvars g) sg.
Proof.
  intros Hn SO [[FC [(L0 & N & _ & C1 & C2 & R)|(L1 & N & _)]] W].
  - eexists _, _. split; [exact R|]. split; [exact FC|]. split; [lia|]. rewrite N. unfold cur_sys. destruct (Z.eqb_spec (change_var_order g) (-1)) as [E|E]; [exact SO|]. apply swp_ok; [lia|lia|exact SO].
  - destruct (W L1) as (cs & [R L] & F). eexists _, _. split; [exact R|]. split; [exact FC|]. split; [lia|]. rewrite N. apply form_sys; [exact SO|congruence|exact F].
Qed.
(** A run that ends with an answer: the attempts before, and the answer of the last one. *)
Lemma drive_ok p names s n cf env fuel sorter gh : forall k i round g rnd a g', prime p -> 2 < p < 2 ^ 31 -> Z.of_nat n < p -> (0 < n)%nat -> length names = n -> sys_wf n s -> good p names s n g ->
  drive cf env fuel sorter gh k i round g rnd = Some (Answered a, g') ->
  exists os F j round', attempts gh os g rnd = Some (true, g') /\ good p names s n g' /\ engine_input sorter g' = Some (1, F) /\ field_answer (cf (nvars g')) (env j) fuel round' F = F4Model.Ok a /\ a <> AFail /\ a <> ASquares.
Proof.
  induction k as [|k IH]; intros i round g rnd a g' PR P N Hn Hl Hw GD H; [discriminate|]. cbn [drive] in H. destruct (engine_input sorter g) as [[r F]|] eqn:EF; [|discriminate]. cbn [obind fst snd] in H.
  destruct (Z.eqb_spec r 1) as [->|Nr]; cbn [negb] in H; [|discriminate]. destruct (field_answer _ _ _ _ _) as [ans| | |] eqn:EA; try discriminate.
  assert (STOP : ans = a -> g = g' -> ans <> AFail -> ans <> ASquares -> exists os F j round', attempts gh os g rnd = Some (true, g') /\ good p names s n g' /\ engine_input sorter g' = Some (1, F) /\ field_answer (cf (nvars g')) (env j) fuel round' F = F4Model.Ok a /\ a <> AFail /\ a <> ASquares).
  { intros -> -> N1 N2. exists [], F, i, (negb (round =? 0)). repeat (split; [assumption || reflexivity|]). exact N2. }
  assert (NEXT : forall o round1, (let? h := handle gh o g rnd in if fst (fst h) then drive cf env fuel sorter gh k (S i) round1 (snd (fst h)) (snd h) else Some (Failed, snd (fst h))) = Some (Answered a, g') ->
    exists os F j round', attempts gh os g rnd = Some (true, g') /\ good p names s n g' /\ engine_input sorter g' = Some (1, F) /\ field_answer (cf (nvars g')) (env j) fuel round' F = F4Model.Ok a /\ a <> AFail /\ a <> ASquares).
  { intros o round1 E. destruct (handle gh o g rnd) as [[[b g1] r1]|] eqn:EH; [|discriminate]. cbn [obind fst snd] in E. destruct b; [|discriminate].
    destruct (IH (S i) round1 g1 r1 a g' PR P N Hn Hl Hw (handle_good p names s n gh o g rnd g1 r1 PR P N Hn Hl Hw GD EH) E) as (os & F1 & j & r2 & A & B & C). exists (o :: os), F1, j, r2. split; [|split; [exact B|exact C]]. cbn [attempts]. rewrite EH. cbn [obind fst snd]. exact A. }
  destruct ans; try (injection H as H1 H2; apply STOP; [exact H1|exact H2|discriminate|discriminate]).
  - exact (NEXT Staircase round H).
  - exact (NEXT Separation (round + 1) H).
Qed.
