(** Properties C37, C38, C44, C45, C51, C52. *)
From Coq Require Import ZArith List Arith Bool Lia Permutation Znumtheory Sorting.Sorted.
From Verif Require Import ModInvModel InputModel InputProofs ImportModel ImportProofs.
From Verif Require Import MonoSpec MonoModel MonoProofs MonoCmpProofs.
Import ListNotations.
Open Scope Z_scope.

(** ** Specification *)
(** A generator is the list of its terms as given by the user. *)
Notation gen C M := (list (C * M)).
(** The routine [sorter] (sort_r of the C code on the pointers to the monomials) returns the positions in an order in
    which the monomials are sorted for [le]. *)
Definition sorts {M} (le : M -> M -> Prop) (sorter : list M -> list nat) (l : list M) : Prop :=
  Permutation (sorter l) (seq 0 (length l)) /\ forall d, StronglySorted le (map (fun j => nth j l d) (sorter l)).
(** The row holds exactly the terms of the generator, with residues modulo [fc] as coefficients, sorted for [le]. *)
Definition imported {M} (fc : Z) (le : M -> M -> Prop) (g : gen Z M) (row : list Z * list M) : Prop :=
  length (fst row) = length g /\ length (snd row) = length g /\
  Permutation (combine (fst row) (snd row)) (map (fun t => (fst t mod fc, snd t)) g) /\ StronglySorted le (snd row).
(** Characteristic 0: the row is a nonzero multiple of the generator. *)
Definition imported_qq {M} (le : M -> M -> Prop) (g : gen (Z * Z) M) (row : list Z * list M) : Prop :=
  length (fst row) = length g /\ length (snd row) = length g /\
  (exists k qs, k <> 0 /\ Permutation (combine (fst row) (snd row)) (combine qs (map snd g)) /\ Forall2 (fun q t => q * snd (fst t) = k * fst (fst t)) qs g) /\
  StronglySorted le (snd row).
Definition has_zero {M} (g : gen Z M) : bool := existsb (fun t => fst t =? 0) g.
Definition has_zero_qq {M} (g : gen (Z * Z) M) : bool := existsb (fun t => (fst (fst t) =? 0) || (snd (fst t) =? 0)) g.
Definition in_range {M} (fc : Z) (g : gen Z M) : Prop := Forall (fun t => - 2 ^ 31 <= fst t < 2 ^ 31 /\ - fc <= fst t) g.

(** ** C38 *)
(** For every characteristic below 2^31 the class has a type that holds all residues. *)
Theorem C38_class : forall fc, 0 < fc < 2 ^ 31 -> fc <= 2 ^ ff_bits fc /\ (ff_bits fc = 8 \/ ff_bits fc = 16 \/ ff_bits fc = 32).
Proof.
  intros fc H. unfold ff_bits. assert (E : int32 fc = fc) by (unfold int32; rewrite Z.mod_small by lia; lia). rewrite E.
  destruct (Z.eqb_spec fc 0); [lia|]. destruct (Z.ltb_spec fc (2 ^ 8)); [lia|]. destruct (Z.ltb_spec fc (2 ^ 16)); lia.
Qed.
Print Assumptions C38_class.
(** The smallest class is taken, so no class is wasted. *)
Theorem C38_smallest : forall fc b, 0 < fc < 2 ^ 31 -> (b = 8 \/ b = 16 \/ b = 32) -> fc < 2 ^ b -> ff_bits fc <= b.
Proof.
  intros fc b H Hb Hf. unfold ff_bits. assert (E : int32 fc = fc) by (unfold int32; rewrite Z.mod_small by lia; lia). rewrite E.
  destruct (Z.eqb_spec fc 0); [lia|]. destruct (Z.ltb_spec fc (2 ^ 8)); [lia|]. destruct (Z.ltb_spec fc (2 ^ 16)); destruct Hb as [->|[->| ->]]; lia.
Qed.
Print Assumptions C38_smallest.
(** Characteristics from 2^31 to the largest one that passes the validation are read as negative numbers: the 8-bit
    kernels are selected and some residue does not fit. *)
Theorem C38_large_refuted : forall fc, 2 ^ 31 <= fc <= 4294967291 -> ff_bits fc = 8 /\ 2 ^ ff_bits fc < fc /\ import_cf (ff_bits fc) fc 256 <> Some (256 mod fc).
Proof.
  intros fc H. assert (E : ff_bits fc = 8).
  { unfold ff_bits. assert (int32 fc = fc - 2 ^ 32). { unfold int32. rewrite <- (Z.mod_unique_pos (fc + 2 ^ 31) (2 ^ 32) 1 (fc - 2 ^ 31)); lia. }
    rewrite H0. destruct (Z.eqb_spec (fc - 2 ^ 32) 0); [lia|]. destruct (Z.ltb_spec (fc - 2 ^ 32) (2 ^ 8)); [reflexivity|lia]. }
  rewrite E. split; [reflexivity|]. split; [lia|]. rewrite import_cf_value by lia. change (0 <=? 256) with true. cbv iota. rewrite (Z.mod_small 256 fc) by lia. intros Q. discriminate Q.
Qed.
Print Assumptions C38_large_refuted.
(** Larger characteristics are reported as an error by the validation, but the caller goes on and reads a null pointer. *)
Theorem C38_invalid_refuted : forall M (sorter : list M -> list nat) fc lens mons cf nv, 4294967291 < fc -> lens <> [] -> 0 < nv -> initialize sorter fc lens mons cf nv 0 = None.
Proof.
  intros M sorter fc lens mons cf nv H HL Hv. unfold initialize, validate. replace (4294967291 <? fc) with true by (symmetry; apply Z.ltb_lt; lia). cbn [obind].
  destruct lens; [contradiction|]. replace (Z.of_nat (length (n :: lens)) <=? 0) with false by (symmetry; apply Z.leb_gt; cbn [length]; lia). reflexivity.
Qed.
Print Assumptions C38_invalid_refuted.
Example C38_ex : ff_bits 65521 = 16 /\ ff_bits 251 = 8 /\ ff_bits 1073741827 = 32 /\ ff_bits 4294967291 = 8.
Proof. repeat split. Qed.

(** ** C37 *)
(** Coefficients not smaller than [- fc] are stored as their residue; every other negative coefficient is stored as the
    residue of itself plus 2^32, which is wrong unless the characteristic divides 2^32. *)
Theorem C37_residue : forall fc c, 0 < fc < 2 ^ 31 -> - 2 ^ 31 <= c < 2 ^ 31 -> - fc <= c -> import_cf (ff_bits fc) fc c = Some (c mod fc).
Proof. intros fc c H Hc Hl. destruct (C38_class fc H). apply import_cf_ok; lia. Qed.
Print Assumptions C37_residue.
Theorem C37_negative_refuted : forall fc c, 0 < fc < 2 ^ 31 -> - 2 ^ 31 <= c < - fc ->
  import_cf (ff_bits fc) fc c = Some ((c + 2 ^ 32) mod fc) /\ (import_cf (ff_bits fc) fc c = Some (c mod fc) <-> (fc | 2 ^ 32)).
Proof.
  intros fc c H Hc. destruct (C38_class fc H) as [B _]. assert (E : import_cf (ff_bits fc) fc c = Some ((c + 2 ^ 32) mod fc)).
  { rewrite import_cf_value by lia. destruct (Z.leb_spec 0 c); [lia|]. destruct (Z.leb_spec (- fc) c); [lia|]. f_equal. rewrite Z.mod_small by (assert (Q := Z.mod_pos_bound (c + fc + 2 ^ 32) fc); lia).
    replace (c + fc + 2 ^ 32) with (c + 2 ^ 32 + 1 * fc) by lia. apply Z_mod_plus_full. }
  split; [exact E|]. rewrite E. split; intros Q.
  - assert (Q' : (c + 2 ^ 32) mod fc = c mod fc) by congruence. clear Q. rename Q' into Q. apply Z.mod_divide; [lia|]. replace (2 ^ 32) with (c + 2 ^ 32 - c) by lia. rewrite Zminus_mod, Q, Z.sub_diag. reflexivity.
  - f_equal. destruct Q as (q & ->). apply Z_mod_plus_full.
Qed.
Print Assumptions C37_negative_refuted.
Example C37_negative_ex : import_cf (ff_bits 65521) 65521 (-65522) = Some 224 /\ (-65522) mod 65521 = 65520 /\ import_cf (ff_bits 5) 5 (-7) = Some 4.
Proof. repeat split. Qed.

Lemma imported_of {M} (le : M -> M -> Prop) sorter fc (g : gen Z M) row : sorts le sorter (map snd g) -> follows sorter (map (fun c => c mod fc) (map fst g)) (map snd g) row -> imported fc le g row.
Proof.
  intros (HP & HS) F. destruct (follows_perm sorter _ _ row (eq_trans (eq_trans (map_length _ _) (map_length _ _)) (eq_sym (map_length _ _))) HP F) as (P1 & P2).
  destruct F as (L1 & L2 & _). rewrite map_length in L1, L2. split; [exact L1|]. split; [exact L2|]. split.
  - replace (map (fun t : Z * M => (fst t mod fc, snd t)) g) with (combine (map (fun c => c mod fc) (map fst g)) (map snd g)); [exact P1|]. clear. induction g as [|t g IH]; cbn; [reflexivity|]. now rewrite IH.
  - destruct (snd row) as [|d r] eqn:E; [constructor|]. rewrite (P2 d). apply HS.
Qed.
Lemma imported_qq_of {M} (le : M -> M -> Prop) sorter (g : gen (Z * Z) M) row : Forall (fun t => snd (fst t) <> 0) g -> sorts le sorter (map snd g) ->
  follows sorter (map (fun x => dens (map fst g) / snd x * fst x) (map fst g)) (map snd g) row -> imported_qq le g row.
Proof.
  intros HD (HP & HS) F. destruct (follows_perm sorter _ _ row (eq_trans (eq_trans (map_length _ _) (map_length _ _)) (eq_sym (map_length _ _))) HP F) as (P1 & P2).
  destruct F as (L1 & L2 & _). rewrite map_length in L1, L2. split; [exact L1|]. split; [exact L2|]. split.
  - exists (dens (map fst g)). eexists. split; [apply dens_nonzero; rewrite Forall_map; exact HD|]. split; [exact P1|].
    assert (Q : forall t, In t g -> (snd (fst t) | dens (map fst g))) by (intros t Ht; apply dens_divide; now apply in_map). revert Q. generalize (dens (map fst g)). clear - HD. intros D Q.
    induction g as [|t g IH]; cbn; [constructor|]. inversion HD; subst. constructor; [|apply IH; [assumption|intros; apply Q; now right]]. destruct (Q t (or_introl eq_refl)) as (q & ->). rewrite Z.div_mul by assumption. ring.
  - destruct (snd row) as [|d r] eqn:E; [constructor|]. rewrite (P2 d). apply HS.
Qed.
Lemma has_zero_flag {M} (g : gen Z M) : existsb (Z.eqb 0) (map fst g) = has_zero g.
Proof. induction g as [|t g IH]; cbn; [reflexivity|]. unfold has_zero in *. rewrite <- IH, Z.eqb_sym. reflexivity. Qed.
Lemma has_zero_qq_flag {M} (g : gen (Z * Z) M) : existsb (fun x => (0 =? fst x) || (0 =? snd x))%bool (map fst g) = has_zero_qq g.
Proof. induction g as [|t g IH]; unfold has_zero_qq in *; cbn [map existsb]; [reflexivity|]. rewrite <- IH, !(Z.eqb_sym 0). reflexivity. Qed.
Lemma count_filter {A} (f : A -> bool) l : count (map f l) = length (filter f l).
Proof. induction l as [|a l IH]; cbn; [reflexivity|]. destruct (f a); cbn; rewrite IH; reflexivity. Qed.
Lemma filter_lens {A} (f : A -> bool) l : (length (filter f l) + length (filter (fun x => negb (f x)) l) = length l)%nat.
Proof. induction l as [|a l IH]; cbn; [reflexivity|]. destruct (f a); cbn; lia. Qed.
Lemma forall2_len {A B} (R : A -> B -> Prop) l m : Forall2 R l m -> length l = length m.
Proof. induction 1; cbn; congruence. Qed.
Lemma initialize_ok {M C} (sorter : list M -> list nat) fc (mk : list C -> coeffs) (bad : gen C M -> bool) (rowf : list C -> list M -> option (list Z * list M)) (R : gen C M -> list Z * list M -> Prop) (gens : list (gen C M)) nv nnf :
  (forall l off n hm, match mk l with
    | CF c => let? r := slice c off n in import_row_ff sorter (ff_bits fc) fc r hm
    | CQ c => let? r := slice c off n in import_row_qq sorter r hm end = let? r := slice l off n in rowf r hm) ->
  (match mk (cfs_of gens) with CF c => if fc =? 0 then None else flags_ff (lens_of gens) 0 c | CQ c => if fc =? 0 then flags_qq (lens_of gens) 0 c else None end) = Some (map bad gens) ->
  fc <= 4294967291 -> 0 < nv -> (nnf < length gens - length (filter bad gens))%nat ->
  (forall g, In g gens -> bad g = false -> exists r, rowf (map fst g) (map snd g) = Some r /\ R g r) ->
  exists rows, initialize sorter fc (lens_of gens) (mons_of gens) (mk (cfs_of gens)) nv (Z.of_nat nnf) = Some (1, rows, Z.of_nat (length gens) - Z.of_nat (length (filter bad gens)) - Z.of_nat nnf - Z.of_nat (length (filter bad (firstn (length gens - length (filter bad gens)) gens)))) /\
    Forall2 R (filter (fun g => negb (bad g)) (firstn (length gens - length (filter bad gens) - nnf) gens)) rows.
Proof.
  intros Hmk HF Hfc Hnv Hn HR. set (k := length (filter bad gens)) in *. set (n := length gens) in *. assert (FL := filter_lens bad gens). fold k n in FL.
  destruct (import_rows_ok sorter fc mk bad rowf R Hmk (n - k - nnf) [] gens) as (rows & E & F).
  { change (n - k - nnf <= n)%nat. lia. }
  { intros g Hg. apply HR. rewrite <- (firstn_skipn (n - k - nnf) gens). apply in_or_app. now left. }
  cbn [app length] in E. change (cfs_of (@nil (gen C M))) with (@nil C) in E. cbn [length] in E. exists rows. split; [|exact F].
  unfold initialize, validate. replace (4294967291 <? fc) with false by (symmetry; apply Z.ltb_ge; lia). replace (nv <? 0) with false by (symmetry; apply Z.ltb_ge; lia).
  assert (LN : length (lens_of gens) = n) by apply map_length. rewrite LN. replace (Z.of_nat n <? 1) with false by (symmetry; apply Z.ltb_ge; lia). replace (Z.of_nat nnf <? 0) with false by (symmetry; apply Z.ltb_ge; lia).
  replace (Z.of_nat n <=? Z.of_nat nnf) with false by (symmetry; apply Z.leb_gt; lia). cbn [orb]. rewrite HF. cbn [obind]. rewrite count_filter. fold k. cbv zeta.
  assert (EV : (if Z.of_nat k =? 0 then Some (1, Some (map bad gens), Z.of_nat n) else if Z.of_nat n - Z.of_nat k <? 1 then Some (-1, Some (map bad gens), Z.of_nat n - Z.of_nat k) else Some (1, Some (map bad gens), Z.of_nat n - Z.of_nat k)) = Some (1, Some (map bad gens), Z.of_nat n - Z.of_nat k)).
  { destruct (Z.eqb_spec (Z.of_nat k) 0); [do 2 f_equal; lia|]. destruct (Z.ltb_spec (Z.of_nat n - Z.of_nat k) 1); [lia|reflexivity]. }
  rewrite EV; clear EV. cbn [obind]. replace (Z.of_nat n - Z.of_nat k <=? Z.of_nat nnf) with false by (symmetry; apply Z.leb_gt; lia). cbn [Z.eqb]. replace (Z.of_nat n - Z.of_nat k <=? 0) with false by (symmetry; apply Z.leb_gt; lia).
  replace (nv <=? 0) with false by (symmetry; apply Z.leb_gt; lia). cbn [orb]. unfold meta, import_input_data.
  replace (Z.to_nat (Z.of_nat n - Z.of_nat k - Z.of_nat nnf) - 0)%nat with (n - k - nnf)%nat by lia. unfold init_off. cbn [firstn fold_right]. rewrite E. cbn [obind].
  rewrite firstn_map, count_filter. replace (Z.to_nat (Z.of_nat n - Z.of_nat k)) with (n - k)%nat by lia. reflexivity.
Qed.
(** What is imported: of n generators, k of them with a zero coefficient, the first n - k (minus those kept for normal
    forms) are read, and of these the ones without a zero coefficient are stored, in order. *)
Theorem C37_import : forall M (le : M -> M -> Prop) sorter fc (gens : list (gen Z M)) nv nnf, 0 < fc < 2 ^ 31 -> 0 < nv ->
  (forall g, In g gens -> in_range fc g /\ sorts le sorter (map snd g)) ->
  let n := length gens in let k := length (filter has_zero gens) in (nnf < n - k)%nat ->
  exists rows ld, initialize sorter fc (lens_of gens) (mons_of gens) (CF (cfs_of gens)) nv (Z.of_nat nnf) = Some (1, rows, ld) /\
    Forall2 (imported fc le) (filter (fun g => negb (has_zero g)) (firstn (n - k - nnf) gens)) rows /\
    ld = Z.of_nat (n - k - nnf) - Z.of_nat (length (filter has_zero (firstn (n - k) gens))).
Proof.
  intros M le sorter fc gens nv nnf Hf Hv HG n k Hn. destruct (C38_class fc Hf) as [B _].
  destruct (initialize_ok sorter fc CF has_zero (import_row_ff sorter (ff_bits fc) fc) (imported fc le) gens nv nnf) as (rows & E & F); try assumption.
  - reflexivity.
  - replace (fc =? 0) with false by (symmetry; apply Z.eqb_neq; lia). assert (Q := flags_ff_ok gens []). cbn [app] in Q. change (length (cfs_of (@nil (list (Z * M))))) with 0%nat in Q. rewrite Q. f_equal. apply map_ext. apply has_zero_flag.
  - lia.
  - intros g Hg _. destruct (HG g Hg) as (HR & HS). destruct (import_row_ff_ok sorter (ff_bits fc) fc (map fst g) (map snd g)) as (row & Er & Fr).
    + lia.
    + exact B.
    + rewrite Forall_map. exact HR.
    + now rewrite !map_length.
    + apply HS.
    + exists row. split; [exact Er|]. eapply imported_of; [apply HS|exact Fr].
  - eexists. eexists. split; [exact E|]. split; [exact F|]. fold n k. lia.
Qed.
Print Assumptions C37_import.
(** Without zero coefficients every generator is imported, in order. *)
Theorem C37_complete : forall M (le : M -> M -> Prop) sorter fc (gens : list (gen Z M)) nv, 0 < fc < 2 ^ 31 -> 0 < nv -> gens <> [] ->
  (forall g, In g gens -> in_range fc g /\ sorts le sorter (map snd g)) -> (forall g t, In g gens -> In t g -> fst t <> 0) ->
  exists rows, initialize sorter fc (lens_of gens) (mons_of gens) (CF (cfs_of gens)) nv 0 = Some (1, rows, Z.of_nat (length gens)) /\ Forall2 (imported fc le) gens rows.
Proof.
  intros M le sorter fc gens nv Hf Hv Hne HG HZ. assert (Z0 : forall g, In g gens -> has_zero g = false).
  { intros g Hg. destruct (has_zero g) eqn:E; [|reflexivity]. apply existsb_exists in E as (t & Ht & Q). apply Z.eqb_eq in Q. exfalso. eapply HZ; eauto. }
  assert (FN : forall l, (forall g, In g l -> In g gens) -> filter has_zero l = [] /\ filter (fun g => negb (has_zero g)) l = l).
  { induction l as [|g l IH]; intros Hl; cbn; [auto|]. rewrite (Z0 g) by (apply Hl; now left). cbn. destruct IH as (-> & ->); auto. intros; apply Hl; now right. }
  destruct (FN gens (fun _ H => H)) as (F1 & F2). destruct (C37_import M le sorter fc gens nv 0 Hf Hv HG) as (rows & ld & E & F & L).
  - rewrite F1. cbn [length]. destruct gens; [contradiction|cbn; lia].
  - rewrite F1 in F, L. cbn [length] in F, L. rewrite !Nat.sub_0_r, firstn_all in F, L. rewrite F1 in L. rewrite F2 in F. cbn [length] in L. exists rows. cbn [Z.of_nat] in E. rewrite E. split; [|exact F]. do 2 f_equal. lia.
Qed.
Print Assumptions C37_complete.
(** A generator with a zero coefficient (zero polynomials and polynomials with an explicit zero term alike) is dropped,
    and as the number of generators is reduced before the first ones are read, a valid generator is lost whenever an
    invalid one stands before the end. *)
Theorem C37_lost_refuted : forall M (le : M -> M -> Prop) sorter fc (gens : list (gen Z M)) nv, 0 < fc < 2 ^ 31 -> 0 < nv ->
  (forall g, In g gens -> in_range fc g /\ sorts le sorter (map snd g)) ->
  forall pre bad post, gens = pre ++ bad :: post -> has_zero bad = true -> (exists g, In g post /\ has_zero g = false) ->
  exists rows ld, initialize sorter fc (lens_of gens) (mons_of gens) (CF (cfs_of gens)) nv 0 = Some (1, rows, ld) /\
    (length rows < length (filter (fun g => negb (has_zero g)) gens))%nat.
Proof.
  intros M le sorter fc gens nv Hf Hv HG pre bad post EG HB (g & Hg & Vg). assert (FL := filter_lens has_zero gens).
  assert (V : (0 < length (filter (fun g => negb (has_zero g)) gens))%nat).
  { destruct (filter (fun g => negb (has_zero g)) gens) as [|x l] eqn:E; [exfalso|cbn; lia]. assert (Q : In g (filter (fun g => negb (has_zero g)) gens)); [|rewrite E in Q; destruct Q].
    apply filter_In. split; [rewrite EG; apply in_or_app; right; now right|now rewrite Vg]. }
  destruct (C37_import M le sorter fc gens nv 0 Hf Hv HG) as (rows & ld & E & F & L); [cbn; lia|]. exists rows, ld. split; [exact E|]. apply forall2_len in F. rewrite <- F. clear F E L rows ld. rewrite Nat.sub_0_r.
  set (v := length (filter (fun g => negb (has_zero g)) gens)) in *. set (k := length (filter has_zero gens)) in *. replace (length gens - k)%nat with v by lia.
  assert (FL2 := filter_lens has_zero (firstn v gens)). rewrite firstn_length in FL2.
  destruct (Nat.lt_ge_cases (length pre) v) as [Hp|Hp].
  - assert (0 < length (filter has_zero (firstn v gens)))%nat; [|lia].
    destruct (filter has_zero (firstn v gens)) as [|x l] eqn:E; [exfalso|cbn; lia]. assert (Q : In bad (filter has_zero (firstn v gens))); [|rewrite E in Q; destruct Q]. apply filter_In. split; [|exact HB].
    rewrite EG, firstn_app. apply in_or_app. right. destruct (v - length pre)%nat eqn:EE; [lia|]. cbn. now left.
  - (* then the first v generators are among those before the invalid one, and the last valid one is after it *)
    unfold v at 1. assert (EV : v = (length (filter (fun g => negb (has_zero g)) pre) + length (filter (fun g => negb (has_zero g)) post))%nat).
    { unfold v. rewrite EG, filter_app, app_length. cbn [filter]. rewrite HB. reflexivity. }
    assert (PO : (0 < length (filter (fun g => negb (has_zero g)) post))%nat).
    { destruct (filter (fun g => negb (has_zero g)) post) as [|x l] eqn:E; [exfalso|cbn; lia]. assert (Q : In g (filter (fun g => negb (has_zero g)) post)); [|rewrite E in Q; destruct Q]. apply filter_In. split; [exact Hg|now rewrite Vg]. }
    assert (FP : firstn v gens = firstn v pre) by (rewrite EG, firstn_app; replace (v - length pre)%nat with 0%nat by lia; cbn; apply app_nil_r).
    fold v. rewrite FP. assert (LE : (length (filter (fun g => negb (has_zero g)) (firstn v pre)) <= length (filter (fun g => negb (has_zero g)) pre))%nat).
    { rewrite <- (firstn_skipn v pre) at 2. rewrite filter_app, app_length. lia. }
    lia.
Qed.
Print Assumptions C37_lost_refuted.
Example C37_lost_ex : (* 0, x: nothing is left, and the load is 0 *)
  initialize (fun l : list nat => seq 0 (length l)) 7 [1; 1]%nat [0; 1]%nat (CF [0; 1]) 2 0 = Some (1, [], 0).
Proof. reflexivity. Qed.
(** A nonzero multiple of the characteristic is not noticed: it is stored as a coefficient 0. *)
Theorem C37_multiple_refuted : forall fc q, 0 < fc < 2 ^ 31 -> q <> 0 -> 0 < q * fc < 2 ^ 31 -> existsb (Z.eqb 0) [q * fc] = false /\ import_cf (ff_bits fc) fc (q * fc) = Some 0.
Proof.
  intros fc q Hf Hq Hr. split; [cbn; destruct (q * fc); lia|]. rewrite C37_residue by lia. rewrite Z.mod_mul by lia. reflexivity.
Qed.
Print Assumptions C37_multiple_refuted.
(** Characteristic 0: every stored polynomial is a nonzero integer multiple of the given one. *)
Theorem C37_rational : forall M (le : M -> M -> Prop) sorter (gens : list (gen (Z * Z) M)) nv, 0 < nv -> gens <> [] ->
  (forall g, In g gens -> sorts le sorter (map snd g)) -> (forall g t, In g gens -> In t g -> fst (fst t) <> 0 /\ snd (fst t) <> 0) ->
  exists rows, initialize sorter 0 (lens_of gens) (mons_of gens) (CQ (cfs_of gens)) nv 0 = Some (1, rows, Z.of_nat (length gens)) /\ Forall2 (imported_qq le) gens rows.
Proof.
  intros M le sorter gens nv Hv Hne HG HZ. assert (Z0 : forall g, In g gens -> has_zero_qq g = false).
  { intros g Hg. destruct (has_zero_qq g) eqn:E; [|reflexivity]. apply existsb_exists in E as (t & Ht & Q). destruct (HZ g t Hg Ht) as (A & B). apply orb_true_iff in Q as [Q|Q]; apply Z.eqb_eq in Q; contradiction. }
  assert (FN : forall l, (forall g, In g l -> In g gens) -> filter has_zero_qq l = [] /\ filter (fun g => negb (has_zero_qq g)) l = l).
  { induction l as [|g l IH]; intros Hl; cbn; [auto|]. rewrite (Z0 g) by (apply Hl; now left). cbn. destruct IH as (-> & ->); auto. intros; apply Hl; now right. }
  destruct (FN gens (fun _ H => H)) as (F1 & F2). assert (Q := flags_qq_ok gens []).
  destruct (initialize_ok sorter 0 CQ has_zero_qq (import_row_qq sorter) (imported_qq le) gens nv 0) as (rows & E & F); try assumption.
  - reflexivity.
  - cbn [app Z.eqb] in *. change (length (cfs_of (@nil (list (Z * Z * M))))) with 0%nat in Q. rewrite Q. f_equal. apply map_ext. apply has_zero_qq_flag.
  - lia.
  - rewrite F1. cbn. destruct gens; [contradiction|cbn; lia].
  - intros g Hg _. assert (HN : Forall (fun t => snd (fst t) <> 0) g) by (apply Forall_forall; intros t Ht; apply (HZ g t Hg Ht)). destruct (import_row_qq_ok sorter (map fst g) (map snd g)) as (row & Er & Fr).
    + rewrite Forall_map. exact HN.
    + now rewrite !map_length.
    + apply (HG g Hg).
    + exists row. split; [exact Er|]. eapply imported_qq_of; [exact HN|apply (HG g Hg)|exact Fr].
  - rewrite F1 in E, F. cbn [length] in E, F. rewrite !Nat.sub_0_r, firstn_all in E. rewrite !Nat.sub_0_r, firstn_all in F. rewrite F1 in E. rewrite F2 in F. cbn [length] in E. exists rows. cbn [Z.of_nat] in E. rewrite E. split; [|exact F]. do 2 f_equal. lia.
Qed.
Print Assumptions C37_rational.
Example C37_ex : (* 3x - 2y, -y + 5 modulo 7, sorted by position *)
  initialize (fun l : list nat => rev (seq 0 (length l))) 7 [2; 2]%nat [1; 2; 2; 0]%nat (CF [3; -2; -1; 5]) 2 0 = Some (1, [([5; 3], [2; 1]%nat); ([5; 6], [0; 2]%nat)], 2).
Proof. reflexivity. Qed.
Example C37_rational_ex : initialize (fun l : list nat => seq 0 (length l)) 0 [2]%nat [1; 2]%nat (CQ [(1, 2); (-3, 5)]) 2 0 = Some (1, [([5; -6], [1; 2]%nat)], 1).
Proof. reflexivity. Qed.

(** ** C52: both ways of applying the permutation, by copying and by exchanging, do apply it *)
Theorem C52_permutes : forall C H (tmp : C) (cf : list C) (hm : list H) p, length cf = length hm -> Permutation p (seq 0 (length hm)) ->
  forall mv, mv = copying \/ mv = swapping ->
  exists cf' hm', sort_terms mv tmp cf hm p = Some (cf', hm') /\ (forall d, cf' = map (fun j => nth j cf d) p) /\ (forall d, hm' = map (fun j => nth j hm d) p).
Proof.
  intros C H tmp cf hm p HL HP mv HM. assert (MO : mover_ok mv) by (destruct HM as [-> | ->]; [apply copying_ok|apply swapping_ok]).
  destruct (sort_terms_ok mv (length hm) cf hm p MO HL eq_refl HP tmp) as (cf' & hm' & E & L1 & L2 & F). exists cf', hm'. split; [exact E|]. split; intros d.
  - apply row_map; [congruence|rewrite HL; exact HP|]. intros k Hk. apply F. congruence.
  - apply row_map; [congruence|exact HP|]. intros k Hk. now apply F.
Qed.
Print Assumptions C52_permutes.
Example C52_ex : sort_terms swapping 0 [10; 11; 12; 13; 14] [0; 1; 2; 3; 4]%nat [2; 0; 1; 4; 3]%nat = Some ([12; 10; 11; 14; 13], [2; 0; 1; 4; 3]%nat).
Proof. reflexivity. Qed.

(** ** C51: order of the terms *)
(** The comparator handed to the sorting routine. *)
Definition gens_le (o : ordering) (a b : mono) : Prop := exists c, initial_gens_cmp o (lay (o_nev o) a) (lay (o_nev o) b) = Some c /\ c <= 0.
Lemma ss_weaken {A} (R S : A -> A -> Prop) l : (forall a b, In a l -> In b l -> R a b -> S a b) -> StronglySorted R l -> StronglySorted S l.
Proof.
  intros H. induction 1 as [|a l HS IH HF]; constructor; [apply IH; intros; apply H; [now right|now right|assumption]|]. rewrite Forall_forall in *. intros b Hb. apply H; [now left|now right|now apply HF].
Qed.
Lemma ss_strict {A} (R S : A -> A -> Prop) l : NoDup l -> (forall a b, In a l -> In b l -> a <> b -> R a b -> S a b) -> StronglySorted R l -> StronglySorted S l.
Proof.
  intros ND H HS. revert ND H. induction HS as [|a l HS IH HF]; intros ND H; constructor; inversion ND; subst.
  - apply IH; [assumption|]. intros; apply H; [now right|now right|assumption|assumption].
  - rewrite Forall_forall in *. intros b Hb. apply H; [now left|now right|intros ->; contradiction|now apply HF].
Qed.
(** DRL and block orders: the monomials of every imported row decrease. *)
Theorem C51_decreasing : forall o fc (g : gen Z mono) row, o_ok o -> (o_nev o <> 0 \/ o_mo o <> 1)%nat -> (forall t, In t g -> length (snd t) = o_nv o) -> NoDup (map snd g) ->
  imported fc (gens_le o) g row -> StronglySorted (fun a b => o_lt o b a) (snd row).
Proof.
  intros o fc g row Ho Hs HL ND (L1 & L2 & HP & HS).
  assert (HM : Permutation (snd row) (map snd g)).
  { assert (E1 : map snd (combine (fst row) (snd row)) = snd row). { assert (LL : length (fst row) = length (snd row)) by congruence. revert LL. generalize (fst row) (snd row). intros l; induction l as [|a l IH]; intros [|b m] LL; try discriminate; [reflexivity|]. cbn. now rewrite IH by (cbn in LL; lia). }
    apply (Permutation_map snd) in HP. rewrite E1, map_map in HP. exact HP. }
  assert (LM : forall a, In a (snd row) -> length a = o_nv o) by (intros a Ha; apply (Permutation_in _ HM) in Ha; apply in_map_iff in Ha as (t & <- & Ht); now apply HL).
  apply (ss_strict (gens_le o)); [apply (Permutation_NoDup (Permutation_sym HM)); exact ND| |exact HS]. intros a b Ha Hb Hne (c & Ec & Hc).
  destruct (variants_ok o a b Ho (LM a Ha) (LM b Hb)) as (c1 & H1 & _ & _ & H4). assert (E : ((o_nev o =? 0) && (o_mo o =? 1))%nat = false).
  { destruct (Nat.eqb_spec (o_nev o) 0); destruct (Nat.eqb_spec (o_mo o) 1); cbn; auto; lia. }
  rewrite E in H4. destruct (monomial_cmp_ev_ok o a b Ho (LM a Ha) (LM b Hb)) as (c' & H1' & (X1 & X2 & X3)). rewrite H1 in H1'. injection H1' as <-. rewrite Ec in H4. injection H4 as ->. apply X3. assert (c1 <> 0) by (intros Q; apply Hne; now apply X2). lia.
Qed.
Print Assumptions C51_decreasing.
(** Lexicographic order: they increase, so the entry taken as leading term is the smallest one. *)
Theorem C51_lex_refuted : forall o fc (g : gen Z mono) row, o_ok o -> o_nev o = 0%nat -> o_mo o = 1%nat -> (forall t, In t g -> length (snd t) = o_nv o) -> NoDup (map snd g) ->
  imported fc (gens_le o) g row -> StronglySorted (fun a b => lex_lt a b) (snd row).
Proof.
  intros o fc g row Ho He Hm HL ND (L1 & L2 & HP & HS).
  assert (HM : Permutation (snd row) (map snd g)).
  { assert (E1 : map snd (combine (fst row) (snd row)) = snd row). { assert (LL : length (fst row) = length (snd row)) by congruence. revert LL. generalize (fst row) (snd row). intros l; induction l as [|a l IH]; intros [|b m] LL; try discriminate; [reflexivity|]. cbn. now rewrite IH by (cbn in LL; lia). }
    apply (Permutation_map snd) in HP. rewrite E1, map_map in HP. exact HP. }
  assert (LM : forall a, In a (snd row) -> length a = o_nv o) by (intros a Ha; apply (Permutation_in _ HM) in Ha; apply in_map_iff in Ha as (t & <- & Ht); now apply HL).
  assert (OL : o_lt o = lex_lt) by (unfold o_lt, sel; rewrite He, Hm; reflexivity).
  apply (ss_strict (gens_le o)); [apply (Permutation_NoDup (Permutation_sym HM)); exact ND| |exact HS]. intros a b Ha Hb Hne (c & Ec & Hc).
  destruct (variants_ok o a b Ho (LM a Ha) (LM b Hb)) as (c1 & H1 & _ & _ & H4). rewrite He, Hm in H4. cbn [Nat.eqb andb] in H4. rewrite He in Ec. rewrite Ec in H4. injection H4 as ->.
  destruct (monomial_cmp_ev_ok o a b Ho (LM a Ha) (LM b Hb)) as (c' & H1' & (X1 & X2 & X3)). rewrite H1 in H1'. injection H1' as <-. rewrite OL in X1. apply X1. assert (c1 <> 0) by (intros Q; apply Hne; now apply X2). lia.
Qed.
Print Assumptions C51_lex_refuted.
Example C51_ex : let o := {| o_nv := 2; o_nev := 0; o_mo := 0 |} in
  imported 7 (gens_le o) [(3, [0; 1]%N); (1, [2; 0]%N)] ([1; 3], [[2; 0]; [0; 1]]%N).
Proof.
  split; [reflexivity|]. split; [reflexivity|]. split; [apply perm_swap|]. constructor; [constructor; [constructor|constructor]|]. constructor; [|constructor]. eexists. split; [vm_compute; reflexivity|]. lia.
Qed.

(** ** C44 *)
(** Copying rows: every coefficient becomes its canonical residue; other rows of the table are untouched. *)
Theorem C44_residue : forall bits p c, (bits = 8 \/ bits = 16 \/ bits = 32) -> 0 < p <= 2 ^ bits -> copy_cf bits p c = Some (c mod p) /\ 0 <= c mod p < p /\ (p | c - c mod p).
Proof.
  intros bits p c Hb Hp. assert (B := Z.mod_pos_bound c p ltac:(lia)). split; [|split; [exact B|]].
  - unfold copy_cf, fdiv_ui. replace ((bits =? 8) || (bits =? 16) || (bits =? 32)) with true by (destruct Hb as [->|[->| ->]]; reflexivity). replace (p =? 0) with false by (symmetry; apply Z.eqb_neq; lia). cbn [obind]. f_equal. apply Z.mod_small. lia.
  - exists (c / p). rewrite (Z.div_mod c p) at 1 by lia. ring.
Qed.
Print Assumptions C44_residue.
Lemma copy_rows_ok bits p rows : (bits = 8 \/ bits = 16 \/ bits = 32) -> 0 < p <= 2 ^ bits -> forall cf new, length new = length cf ->
  (forall idx len, In (idx, len) rows -> exists r, nth_error cf idx = Some r /\ len = length r) ->
  exists new', copy_rows bits p rows cf new = Some new' /\ length new' = length cf /\
    forall i, (In i (map fst rows) -> nth_error new' i = option_map (map (fun c => c mod p)) (nth_error cf i)) /\ (~ In i (map fst rows) -> nth_error new' i = nth_error new i).
Proof.
  intros Hb Hp. induction rows as [|(idx, len) rows IH]; intros cf new HL HR; cbn [copy_rows map fst].
  - exists new. repeat split; [assumption|intros []].
  - destruct (HR idx len (or_introl eq_refl)) as (r & Er & El). rewrite Er. cbn [obind]. subst len. assert (Q := slice_mid [] r []). cbn [app length] in Q. rewrite app_nil_r in Q. rewrite Q. cbn [obind].
    rewrite (omap_map _ (fun c => c mod p)) by (intros x _; apply (proj1 (C44_residue bits p x Hb Hp))). cbn [obind]. assert (LI : (idx < length cf)%nat) by (apply nth_error_Some; congruence).
    destruct (aset_some new idx (map (fun c => c mod p) r) ltac:(lia)) as (n1 & E1 & L1 & N1 & O1). rewrite E1. cbn [obind].
    destruct (IH cf n1 ltac:(congruence)) as (n2 & E2 & L2 & F2); [intros; apply HR; now right|]. exists n2. split; [exact E2|]. split; [exact L2|]. intros i. destruct (F2 i) as (A & B). destruct (in_dec Nat.eq_dec i (map fst rows)) as [D|D].
    + split; [intros _; now apply A|intros HN; exfalso; apply HN; now right].
    + rewrite (B D). split; [intros [<-|HI]; [rewrite N1, Er; reflexivity|contradiction]|]. intros HN. apply O1. intros ->. apply HN. now left.
Qed.
Theorem C44_copy : forall bits p rows cf, (bits = 8 \/ bits = 16 \/ bits = 32) -> 0 < p <= 2 ^ bits ->
  (forall idx len, In (idx, len) rows -> exists r, nth_error cf idx = Some r /\ len = length r) ->
  exists new, copy_rows bits p rows cf (map (fun _ => []) cf) = Some new /\
    forall i r, In i (map fst rows) -> nth_error cf i = Some r -> nth_error new i = Some (map (fun c => c mod p) r).
Proof.
  intros bits p rows cf Hb Hp HR. destruct (copy_rows_ok bits p rows Hb Hp cf (map (fun _ => []) cf) (map_length _ _) HR) as (new & E & L & F). exists new. split; [exact E|]. intros i r Hi Er. rewrite (proj1 (F i) Hi), Er. reflexivity.
Qed.
Print Assumptions C44_copy.
Theorem C44_generators : forall nums p, 0 < p <= 2 ^ 31 -> reduce_generators nums p = Some (map (fun c => c mod p) nums).
Proof.
  intros nums p Hp. unfold reduce_generators. apply omap_map. intros x _. unfold fdiv_ui. replace (p =? 0) with false by (symmetry; apply Z.eqb_neq; lia). cbn [obind]. f_equal.
  assert (B := Z.mod_pos_bound x p ltac:(lia)). unfold int32. rewrite Z.mod_small; lia.
Qed.
Print Assumptions C44_generators.
(** The image is a homomorphic one: sums and products of the copied values agree with those of the originals. *)
Theorem C44_homomorphism : forall bits p a b a' b', (bits = 8 \/ bits = 16 \/ bits = 32) -> 0 < p <= 2 ^ bits -> copy_cf bits p a = Some a' -> copy_cf bits p b = Some b' ->
  copy_cf bits p (a + b) = Some ((a' + b') mod p) /\ copy_cf bits p (a * b) = Some ((a' * b') mod p).
Proof.
  intros bits p a b a' b' Hb Hp Ha Hb'. rewrite (proj1 (C44_residue bits p a Hb Hp)) in Ha. rewrite (proj1 (C44_residue bits p b Hb Hp)) in Hb'. injection Ha as <-. injection Hb' as <-.
  rewrite (proj1 (C44_residue bits p (a + b) Hb Hp)), (proj1 (C44_residue bits p (a * b) Hb Hp)). split; f_equal; [apply Zplus_mod|apply Zmult_mod].
Qed.
Print Assumptions C44_homomorphism.
Example C44_ex : copy_rows 32 65521 [(1, 2); (0, 1)]%nat [[-1]; [65521 * 3 + 2; -65523]] [[]; []] = Some [[65520]; [2; 65519]].
Proof. reflexivity. Qed.

(** ** C45 *)
(** The rows of the result are primitive, have a positive leading coefficient and are proportional to the given ones. *)
Theorem C45_content : forall rows, (forall r, In r rows -> exists c l, r = c :: l /\ c <> 0) ->
  exists res, remove_content rows = Some res /\
    Forall2 (fun r r' => (exists k, k <> 0 /\ r = map (Z.mul k) r') /\ (exists d l, r' = d :: l /\ 0 < d) /\ (forall q, (forall x, In x r' -> (q | x)) -> q = 1 \/ q = -1)) rows res.
Proof.
  intros rows HR. unfold remove_content.
  destruct (omap_forall2 remove_content_row (fun r r' => exists k, k <> 0 /\ map (Z.mul k) r' = r /\ gcds r' = 1) rows) as (r1 & E1 & F1).
  { intros x Hx. destruct (HR x Hx) as (c & l & -> & Hc). destruct (remove_content_row_ok c l Hc) as (k & r & A & B & D & G). exists r. split; [exact A|]. exists k. auto. }
  rewrite E1. cbn [obind]. clear E1. revert HR. induction F1 as [|r r' rows r1 (k & Hk & Em & Hg) F1 IH]; intros HR; cbn [omap]; [eexists; split; [reflexivity|constructor]|].
  destruct (HR r (or_introl eq_refl)) as (c & l & -> & Hc). destruct r' as [|d l']; [discriminate|]. assert (Hd : d <> 0) by (cbn in Em; injection Em as <- _; nia).
  destruct (positive_row_ok d l' Hd) as (s & d2 & l2 & Ep & Hd2 & Hs & Es & Eg). rewrite Ep. cbn [obind]. destruct IH as (res & E & F); [intros; apply HR; now right|]. rewrite E. cbn [obind]. eexists. split; [reflexivity|]. constructor; [|exact F].
  split; [exists (k * s); split; [destruct Hs; nia|]|split; [eauto|]].
  - rewrite <- Em, <- Es, map_map. apply map_ext. intros; lia.
  - intros q Hq. assert (D : (q | gcds (d2 :: l2))). { revert Hq. generalize (d2 :: l2). clear. induction l as [|a l IH]; intros Hq; cbn; [apply Z.divide_0_r|]. apply Z.gcd_greatest; [apply Hq; now left|apply IH; intros; apply Hq; now right]. }
    rewrite Eg, Hg in D. apply Z.divide_1_r in D. lia.
Qed.
Print Assumptions C45_content.
(** Every row, of every length, is treated inside its bounds. *)
Theorem C45_total : forall rows, (forall r, In r rows -> r <> []) -> exists res, remove_content rows = Some res /\ map (@length Z) res = map (@length Z) rows.
Proof.
  intros rows HR. unfold remove_content. destruct (omap_forall2 remove_content_row (fun r r' => length r' = length r) rows) as (r1 & E1 & F1).
  { intros x Hx. specialize (HR x Hx). destruct x as [|c l]; [contradiction|]. unfold remove_content_row. cbn [nth_error obind]. destruct (c =? 0); [eauto|]. destruct (gcd_loop _ _); [rewrite all_row_ok; eexists; split; [reflexivity|apply map_length]|eauto]. }
  rewrite E1. cbn [obind]. destruct (omap_forall2 positive_row (fun r r' => length r' = length r) r1) as (r2 & E2 & F2).
  { intros x Hx. assert (HN : x <> []). { clear - F1 Hx HR. induction F1 as [|a b l1 l2 A F IH]; [destruct Hx|]. destruct Hx as [<-|Hx]; [|apply IH; [intros; apply HR; now right|assumption]]. specialize (HR a (or_introl eq_refl)). destruct a; [contradiction|]. destruct b; [discriminate|]. discriminate. }
    destruct x as [|c l]; [contradiction|]. unfold positive_row. cbn [nth_error obind]. destruct (c <? 0); [rewrite all_row_ok; eexists; split; [reflexivity|apply map_length]|eauto]. }
  exists r2. split; [exact E2|]. clear - F1 F2. revert r2 F2. induction F1 as [|a b l1 l2 A F IH]; intros r2 F2; inversion F2; subst; cbn; [reflexivity|]. rewrite (IH _ H3). congruence.
Qed.
Print Assumptions C45_total.
Example C45_ex : remove_content [[-6; 9; 0; 12; -3]; [5]; [-4; 6]] = Some [[2; -3; 0; -4; 1]; [1]; [2; -3]].
Proof. reflexivity. Qed.
