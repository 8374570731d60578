(** C80: solving through the library. *)
From Coq Require Import ZArith NArith Arith String List Bool Ascii Lia.
From Verif Require Import F4Model ModInvModel InputSpec InputModel InputProofs InputProps ImportModel BoxModel OutModel LibModel LibProofs JulSpec JulModel.
Import ListNotations.
Open Scope Z_scope.
Notation length := List.length.

(** ** The arrays can be read in one way only *)
Lemma app_cut {A} : forall (a a' b b' : list A), length a = length a' -> a ++ b = a' ++ b' -> a = a' /\ b = b'.
Proof. induction a as [|x a IH]; intros [|x' a'] b b' L E; try discriminate L; [auto|]. cbn in *. injection E as -> E. injection L as L. destruct (IH a' b b' L E) as [-> ->]. auto. Qed.
Theorem C80_readable : forall r r' lens cfs, param_arrays r lens cfs -> param_arrays r' lens cfs -> r = r'.
Proof.
  intros [e d c] [e' d' c'] lens cfs [L C] [L' C']. cbn [r_elim r_denom r_coords] in *. rewrite L in L'. injection L' as L1 L2 L3. apply Nat2Z.inj in L1, L2. rewrite C in C'. destruct (app_cut _ _ _ _ L1 C') as [-> C1]. destruct (app_cut _ _ _ _ L2 C1) as [-> C2]. f_equal. clear - L3 C2.
  revert c' L3 C2. induction c as [|[f x] c IH]; intros [|[f' x'] c'] L C; try discriminate L; [reflexivity|]. cbn [map concat fst snd] in *. injection L as L1 L2. rewrite <- !app_assoc in C. destruct (app_cut f f' _ _ ltac:(lia) C) as [-> C1]. cbn in C1. injection C1 as -> C1. f_equal. apply IH; assumption.
Qed.
Print Assumptions C80_readable.
Theorem C80_readable_points : forall n pts pts' num den, (0 < n)%nat -> Forall (fun p => length p = n) pts -> Forall (fun p => length p = n) pts' -> point_arrays pts num den -> point_arrays pts' num den -> pts = pts'.
Proof.
  intros n pts pts' num den Hn Hp Hp' [E1 E2] [E1' E2'].
  assert (EE : ends pts = ends pts').
  { assert (G : forall l l' : list end2, map fst l = map fst l' -> map snd l = map snd l' -> l = l') by (induction l as [|[a b] l IH]; intros [|[a' b'] l'] F1 F2; try discriminate; [reflexivity|]; cbn in *; injection F1 as -> F1; injection F2 as -> F2; f_equal; auto). apply G; congruence. }
  assert (EC : concat pts = concat pts').
  { unfold ends in EE. revert EE. generalize (concat pts), (concat pts'). induction l as [|[a b] l IH]; intros [|[a' b'] l'] E; try discriminate; [reflexivity|]. cbn [map concat fst snd app] in E. injection E as -> -> E. f_equal. apply IH. exact E. }
  clear - Hn Hp Hp' EC. revert pts' Hp' EC. induction Hp as [|p pts L Hp IH]; intros pts' Hp' E; destruct Hp' as [|p' pts' L' Hp'].
  - reflexivity.
  - exfalso. cbn in E. destruct p'; [cbn in L'; lia|discriminate E].
  - exfalso. cbn in E. destruct p; [cbn in L; lia|discriminate E].
  - cbn [concat] in E. destruct (app_cut _ _ _ _ (eq_trans L (eq_sym L')) E) as [-> E']. f_equal. apply IH; assumption.
Qed.
Print Assumptions C80_readable_points.

(** ** Finitely many solutions over the rationals *)
(** What the computation gives: as many numerators and factors as variables less one, and points of equal length. *)
Definition param_ok (m : mparam) (cs : list (list Z)) : Prop := p_coords m = Some cs /\ S (length cs) = p_nvars m /\ length (p_cfs m) = length cs.
Definition meant_param (m : mparam) (cs : list (list Z)) : rparam := {| r_elim := p_elim m; r_denom := p_denom m; r_coords := combine cs (p_cfs m) |}.
Definition meant_points (pts : list (list box)) : list (list (end2 * end2)) := map (map (fun b => ((val_do b, k_do b), (val_up b, k_up b)))) pts.
Definition small (n : nat) : Prop := Z.of_nat n < 2 ^ 31 - 1.
Lemma omap_some {A B} (f : A -> option B) (g : A -> B) : forall l, (forall a, In a l -> f a = Some (g a)) -> omap f l = Some (map g l).
Proof. induction l as [|a l IH]; intros H; [reflexivity|]. cbn [omap map]. rewrite (H a) by now left. cbn [obind]. rewrite IH by (intros; apply H; now right). reflexivity. Qed.
Lemma map_nth_seq {A} (d : A) : forall l, map (fun i => nth i l d) (seq 0 (length l)) = l.
Proof. induction l as [|a l IH]; [reflexivity|]. cbn [length seq map nth]. f_equal. rewrite <- seq_shift, map_map. exact IH. Qed.
Lemma omap_nth {A} (l : list A) n : n = length l -> omap (fun i => nth_error l i) (seq 0 n) = Some l.
Proof.
  intros ->. destruct l as [|a0 l0]; [reflexivity|]. set (l := a0 :: l0). rewrite (omap_some _ (fun i => nth i l a0)); [f_equal; apply map_nth_seq|]. intros i Hi. apply in_seq in Hi. apply nth_error_nth'. lia.
Qed.
Lemma export_param_ok m cs : param_ok m cs -> small (length (p_elim m)) -> small (length (p_denom m)) -> Forall (fun c => small (length c)) cs ->
  exists lens cfs, export_param m = Ok (lens, cfs) /\ param_arrays (meant_param m cs) lens cfs.
Proof.
  intros (E & L & F) S1 S2 S3. unfold small in *. unfold export_param. assert (N : (p_nvars m - 1 = length cs)%nat) by lia. rewrite N. rewrite puts_ok by (cbn; lia). cbn [rbind app].
  assert (E1 : omap (coord_at m) (seq 0 (length cs)) = Some cs) by (unfold coord_at; rewrite E; cbn [obind]; apply omap_nth; reflexivity). rewrite E1. cbn [of_opt rbind]. rewrite puts_ok by (cbn [length]; rewrite map_length; lia). cbn [rbind].
  set (nt := (_ + _ + _)%nat). rewrite puts_ok by (unfold nt; cbn; lia). cbn [rbind app]. rewrite puts_ok by (unfold nt; lia). cbn [rbind]. rewrite (omap_nth (p_cfs m)) by congruence. cbn [of_opt rbind].
  assert (LC : length (concat (map (fun cf => fst cf ++ [snd cf]) (combine cs (p_cfs m)))) = fold_right (fun c n => length c + 1 + n)%nat 0%nat cs).
  { clear - F. revert F. generalize (p_cfs m). induction cs as [|c cs IH]; intros [|x fs] F; try discriminate F; [reflexivity|]. cbn [combine map concat fold_right fst snd]. rewrite !app_length, IH by (cbn in F; lia). cbn. lia. }
  rewrite puts_ok by (rewrite app_length, LC; unfold nt; lia). cbn [rbind]. eexists _, _. split; [reflexivity|]. unfold param_arrays, meant_param. cbn [r_elim r_denom r_coords]. rewrite !int32_id by lia. split.
  - cbn [app]. f_equal. f_equal. clear - F S3. revert F. generalize (p_cfs m). induction S3 as [|c cs S0 S3 IH]; intros [|x fs] F; try discriminate F; [reflexivity|]. cbn [combine map fst]. unfold small in S0. rewrite int32_id by lia. f_equal. apply IH. cbn in F. lia.
  - rewrite <- app_assoc. reflexivity.
Qed.
Lemma ends_len n : forall pts, Forall (fun p : list box => length p = n) pts -> length (concat (map (fun b => [val_do b; val_up b]) (concat pts))) = (2 * length pts * n)%nat.
Proof.
  intros pts H. assert (LL : forall (f g : box -> Z) l, length (concat (map (fun b => [f b; g b]) l)) = (2 * length l)%nat) by (intros f g; induction l as [|b l IH]; [reflexivity|]; cbn [map concat]; rewrite app_length, IH; cbn; lia). rewrite LL.
  induction H as [|p pts L H IH]; [reflexivity|]. cbn [concat length]. rewrite app_length, L. nia.
Qed.
Lemma ends_map {A} (h : end2 -> A) (f : box -> A) (g : box -> A) : (forall b, h (val_do b, k_do b) = f b) -> (forall b, h (val_up b, k_up b) = g b) -> forall pts, concat (map (fun b => [f b; g b]) (concat pts)) = map h (ends (meant_points pts)).
Proof.
  intros Hf Hg pts. unfold ends, meant_points. rewrite <- concat_map. rewrite map_map. generalize (concat pts). induction l as [|b l IH]; [reflexivity|]. cbn [map concat fst snd app]. rewrite IH, Hf, Hg. reflexivity.
Qed.
Definition ends_ok (pts : list (list box)) : Prop := forall p b, In p pts -> In b p -> - 2 ^ 31 <= k_do b < 2 ^ 31 /\ - 2 ^ 31 <= k_up b < 2 ^ 31.
Lemma export_points_ok n pts : pts <> [] -> Forall (fun p => length p = n) pts -> ends_ok pts -> exists nu de, export_points pts = Ok (nu, de) /\ point_arrays (meant_points pts) nu de.
Proof.
  intros NE H K. unfold export_points. destruct pts as [|p0 pts]; [contradiction|]. set (P := p0 :: pts) in *. assert (L0 : length p0 = n) by (inversion H; assumption). rewrite L0.
  rewrite puts_ok by (rewrite (ends_len n P H); cbn; lia). cbn [rbind app].
  assert (EK : concat (map (fun b => [int32 (k_do b); int32 (k_up b)]) (concat P)) = concat (map (fun b => [k_do b; k_up b]) (concat P))).
  { f_equal. apply map_ext_in. intros b Hb. apply in_concat in Hb as (p & Hp & Hb). destruct (K p b Hp Hb). rewrite !int32_id by lia. reflexivity. }
  rewrite EK. assert (LK : length (concat (map (fun b => [k_do b; k_up b]) (concat P))) = length (concat (map (fun b => [val_do b; val_up b]) (concat P)))) by (generalize (concat P); induction l as [|b l IH]; [reflexivity|]; cbn [map concat]; rewrite !app_length, IH; reflexivity).
  rewrite puts_ok by (rewrite LK, (ends_len n P H); cbn; lia). cbn [rbind app]. eexists _, _. split; [reflexivity|]. split.
  - apply (ends_map fst); reflexivity.
  - apply (ends_map snd); reflexivity.
Qed.

(** The answer with finitely many solutions over the rationals: the arrays denote the parametrisation and the boxes that were computed. *)
Theorem C80_param : forall g r cs lf, field_char g = 0 -> k_b r = 0 -> k_dim r = 0 -> 0 < k_dquot r < 2 ^ 31 -> param_ok (k_par r) cs -> p_nvars (k_par r) = nvars g -> small (nvars g) ->
  small (length (p_elim (k_par r))) -> small (length (p_denom (k_par r))) -> Forall (fun c => small (length c)) cs -> small (length (k_pts r)) ->
  (exists n, Forall (fun p => length p = n) (k_pts r)) -> ends_ok (k_pts r) -> form_of g = Ok lf ->
  exists x lens cfs, msolve_julia g r = Ok x /\ x_ld x = Z.of_nat (nvars g) + 1 /\ x_dim x = 0 /\ x_dquot x = Some (k_dquot r) /\ x_nvars x = Some (Z.of_nat (nvars g)) /\ x_names x = Some (vnames g) /\ x_lf x = lf /\
    x_lens x = To lens /\ x_cfs x = To cfs /\ param_arrays (meant_param (k_par r) cs) lens cfs /\
    x_nr x = Z.of_nat (length (k_pts r)) /\ (k_pts r <> [] -> exists nu de, x_num x = To nu /\ x_den x = To de /\ point_arrays (meant_points (k_pts r)) nu de).
Proof.
  intros g r cs lf FC B D Q P NV SN S1 S2 S3 SP (n & HP) EO EL. unfold msolve_julia, left_dim, left_param. rewrite B, FC, D. cbn [Z.eqb andb negb Pos.eqb]. replace (0 <? k_dquot r) with true by (symmetry; apply Z.ltb_lt; lia). replace (k_dquot r =? 0) with false by (symmetry; apply Z.eqb_neq; lia). replace (0 <=? k_dquot r) with true by (symmetry; apply Z.leb_le; lia). cbn [andb negb].
  unfold export_julia. rewrite EL. cbn [rbind]. replace (k_dquot r =? 0) with false by (symmetry; apply Z.eqb_neq; lia). cbn [Z.ltb Z.compare Z.eqb andb orb].
  set (m := {| p_nvars := nvars g; p_elim := _; p_denom := _; p_coords := _; p_cfs := _ |}). assert (PM : param_ok m cs) by (destruct P as (P1 & P2 & P3); repeat split; cbn; congruence).
  destruct (export_param_ok m cs PM S1 S2 S3) as (lens & cfs & EP & AR). rewrite EP. cbn [rbind]. unfold small in *.
  destruct (k_pts r) as [|p0 pts] eqn:EPT.
  - eexists _, lens, cfs. split; [reflexivity|]. cbn [x_ld x_dim x_dquot x_nvars x_names x_lf x_lens x_cfs x_nr x_num x_den p_nvars m fst snd]. rewrite !int32_id by lia. do 8 (split; [reflexivity|]). split; [exact AR|]. split; [reflexivity|]. contradiction.
  - destruct (export_points_ok n (p0 :: pts) ltac:(discriminate) HP EO) as (nu & de & E2 & A2). rewrite E2. cbn [rbind]. eexists _, lens, cfs. split; [reflexivity|]. cbn [x_ld x_dim x_dquot x_nvars x_names x_lf x_lens x_cfs x_nr x_num x_den p_nvars m fst snd]. rewrite !int32_id by (cbn [length] in *; lia).
    do 8 (split; [reflexivity|]). split; [exact AR|]. split; [reflexivity|]. intros _. exists nu, de. split; [reflexivity|]. split; [reflexivity|exact A2].
Qed.
Print Assumptions C80_param.

(** ** The linear form *)
Lemma form_some g : 0 < linear_form_base_coef g -> forall a l, cfs g = a ++ l -> length a = sum_lens (removelast (lens g)) -> length l = nvars g -> form_of g = Ok (To (map fst l)).
Proof.
  intros B a l E La Ll. unfold form_of. replace (0 <? linear_form_base_coef g) with true by (symmetry; apply Z.ltb_lt; lia). rewrite <- La, <- Ll.
  assert (Q : omap (fun i => let? c := nth_error (cfs g) (i + length a) in Some (fst c)) (seq 0 (length l)) = Some (map fst l)).
  { rewrite (omap_some _ (fun i => nth i (map fst l) 0)).
    - f_equal. pose proof (map_nth_seq 0 (map fst l)) as MN. rewrite map_length in MN. exact MN.
    - intros i Hi. apply in_seq in Hi. rewrite E, nth_error_app2 by lia. replace (i + length a - length a)%nat with i by lia. rewrite (nth_error_nth' l (0, 0)) by lia. cbn [obind]. f_equal. symmetry. exact (map_nth fst l (0, 0) i). }
  rewrite Q. reflexivity.
Qed.
Lemma lens_cfs : forall s : isys, length (flat_map (map fst) s) = sum_lens (map (@length iterm) s).
Proof. induction s as [|p s IH]; [reflexivity|]. cbn [flat_map map sum_lens fold_right]. rewrite app_length, map_length, IH. reflexivity. Qed.
(** After any restarts the form handed out is the one in the system: its coefficients are the numerators, and the denominators are 1 when the form is the deterministic one;
    without a linear form it is null. *)
Theorem C80_linear_form : forall gh os g0 names s rnd g, (0 < nvars g0)%nat -> fresh g0 -> rep g0 names s -> attempts gh os g0 rnd = Some (true, g) ->
  (linear_form_base_coef g = 0 -> form_of g = Ok Null) /\
  (0 < linear_form_base_coef g -> forall cs, rep g (names ++ ["A"%string]) (ext_sys s ++ [linear_form cs]) -> length cs = nvars g -> form_of g = Ok (To (map fst cs))) /\
  (0 < linear_form_base_coef g -> exists cs v, rep g (names ++ ["A"%string]) (ext_sys s ++ [linear_form (cs ++ [(v, 1)])]) /\ length (cs ++ [(v, 1)]) = nvars g /\ form_of g = Ok (To (map fst cs ++ [v])) /\ ~ v = 0).
Proof.
  intros gh os g0 names s rnd g Hn Hf R H. split; [intros E; unfold form_of; rewrite E; reflexivity|].
  assert (F : 0 < linear_form_base_coef g -> forall cs, rep g (names ++ ["A"%string]) (ext_sys s ++ [linear_form cs]) -> length cs = nvars g -> form_of g = Ok (To (map fst cs))).
  { intros B cs (_ & _ & _ & RL & _ & RC) LC. assert (EF : map fst (linear_form cs) = cs).
    { unfold linear_form. assert (LQ : length cs = length (map (unit_exp (length cs)) (seq 0 (length cs)))) by (rewrite map_length, seq_length; reflexivity). revert LQ. generalize (map (unit_exp (length cs)) (seq 0 (length cs))). clear. induction cs as [|c cs IH]; intros [|e es] L; try discriminate L; [reflexivity|]. cbn [combine map fst]. f_equal. apply IH. cbn in L. lia. }
    rewrite flat_map_app in RC. cbn [flat_map] in RC. rewrite app_nil_r, EF in RC. apply (form_some g B _ cs RC); [|exact LC]. rewrite RL, map_app. cbn [map]. rewrite removelast_last. apply lens_cfs. }
  split; [exact F|]. intros B. destruct (C40_extends gh os g0 names s rnd g Hn Hf R H ltac:(lia)) as (cs & v & R' & LC & U). exists cs, v. split; [exact R'|].
  assert (LN : length (cs ++ [(v, 1)]) = nvars g). { assert (R'' := R'). destruct R'' as (_ & LN & _). destruct R as (_ & LN0 & _). rewrite app_length in LN |- *. cbn [length] in *. rewrite LC. lia. }
  split; [exact LN|]. split; [|exact (proj1 U)]. rewrite (F B _ R' LN), map_app. reflexivity.
Qed.
Print Assumptions C80_linear_form.

(** ** Infinitely many solutions, or none: no arrays, and the linear form is not assigned *)
Theorem C80_no_param : forall g r lf, k_b r = 0 -> (0 < k_dim r < 2 ^ 31 /\ k_dquot r <> 0) \/ (k_dim r = 0 /\ k_dquot r = 0) -> form_of g = Ok lf -> small (length (k_pts r)) ->
  exists x, msolve_julia g r = Ok x /\ x_dim x = k_dim r /\ x_lens x = Null /\ x_cfs x = Null /\ x_lf x = Same /\ x_num x = Same /\ x_den x = Same /\ x_nr x = Z.of_nat (length (k_pts r)).
Proof.
  intros g r lf B D EL SP. unfold msolve_julia, left_dim. rewrite B. cbn [Z.eqb andb Pos.eqb]. replace (k_dim r =? -1) with false by (symmetry; apply Z.eqb_neq; lia). cbn [negb]. unfold export_julia. rewrite EL. cbn [rbind].
  replace ((0 <? k_dim r) || (k_dim r =? 0) && (k_dquot r =? 0))%bool with true. 2: { symmetry. destruct D as [[D _]|[D1 D2]]; [replace (0 <? k_dim r) with true by (symmetry; apply Z.ltb_lt; lia); reflexivity|rewrite D1, D2; reflexivity]. }
  eexists. split; [reflexivity|]. cbn. unfold small in SP. rewrite !int32_id by lia. repeat split.
Qed.
Print Assumptions C80_no_param.

(** ** What fails *)
Lemma form_ok g : linear_form_base_coef g = 0 -> form_of g = Ok Null.
Proof. intros E. unfold form_of. rewrite E. reflexivity. Qed.
(** Over a prime field, with finitely many solutions and at least two variables, a null pointer is followed. With one variable two empty polynomials are handed out. *)
Theorem C80_prime_field_refuted : forall g r lf, field_char g <> 0 -> k_b r = 0 -> k_dim r = 0 -> 0 < k_dquot r < 2 ^ 31 -> form_of g = Ok lf ->
  ((2 <= nvars g)%nat -> msolve_julia g r = Undef) /\
  (nvars g = 1%nat -> k_pts r = [] -> exists x, msolve_julia g r = Ok x /\ x_lens x = To [0; 0] /\ x_cfs x = To []).
Proof.
  intros g r lf FC B D Q EL. assert (E : msolve_julia g r = export_julia g 0 (k_dquot r) (no_param (nvars g)) (k_pts r)).
  { unfold msolve_julia, left_dim, left_param. rewrite B, D. replace (field_char g =? 0) with false by (symmetry; apply Z.eqb_neq; lia). replace (0 <? k_dquot r) with true by (symmetry; apply Z.ltb_lt; lia). replace (k_dquot r =? 0) with false by (symmetry; apply Z.eqb_neq; lia). replace (0 <=? k_dquot r) with true by (symmetry; apply Z.leb_le; lia). reflexivity. }
  rewrite E. unfold export_julia. rewrite EL. cbn [rbind]. replace (k_dquot r =? 0) with false by (symmetry; apply Z.eqb_neq; lia). cbn [Z.ltb Z.compare Z.eqb andb orb]. split.
  - intros N. unfold export_param. cbn [no_param p_nvars p_elim p_denom length]. rewrite puts_ok by (cbn; lia). cbn [rbind]. replace (omap (coord_at (no_param (nvars g))) (seq 0 (nvars g - 1))) with (@None (list (list Z))); [reflexivity|]. destruct (nvars g - 1)%nat as [|k] eqn:K; [lia|]. reflexivity.
  - intros N P. rewrite N, P. eexists. split; [reflexivity|]. split; reflexivity.
Qed.
Print Assumptions C80_prime_field_refuted.
(** When the computation gives up although there are finitely many solutions (b = 2, or over a prime field b = 1), two lengths are written to a block for one. *)
Theorem C80_failed_refuted : forall g r lf, k_b r = 2 \/ (k_b r = 1 /\ field_char g <> 0) -> k_dim r = 0 -> 0 < k_dquot r -> form_of g = Ok lf -> msolve_julia g r = Undef.
Proof.
  intros g r lf B D Q EL. assert (E : msolve_julia g r = export_julia g 0 (k_dquot r) (no_param 0) (k_pts r)).
  { unfold msolve_julia, left_dim, left_param. rewrite D. destruct B as [->|[-> FC]]; cbn [Z.eqb andb Pos.eqb]; [rewrite !andb_false_r; reflexivity|]. replace (field_char g =? 0) with false by (symmetry; apply Z.eqb_neq; lia). reflexivity. }
  rewrite E. unfold export_julia. rewrite EL. cbn [rbind]. replace (k_dquot r =? 0) with false by (symmetry; apply Z.eqb_neq; lia). reflexivity.
Qed.
Print Assumptions C80_failed_refuted.
(** With b = 1 over the rationals the caller learns that there is no answer. *)
Theorem C80_failed : forall g r, k_b r = 1 -> field_char g = 0 -> exists x, msolve_julia g r = Ok x /\ x_ld x = -1 /\ x_dim x = -1 /\ x_lens x = Same /\ x_cfs x = Same.
Proof. intros g r B FC. unfold msolve_julia, left_dim. rewrite B, FC. eexists. split; [reflexivity|]. repeat split. Qed.
Print Assumptions C80_failed.
(** The copies of the names of the variables, which are printed and handed back, are never strings: the byte that ends them is not copied. *)
Lemma strlen_string : forall b n, strlen b = Some n -> c_string b = Some (firstn n b) /\ c_string (firstn n b) = None.
Proof.
  induction b as [|c b IH]; intros n E; [discriminate E|]. cbn [strlen] in E. cbn [c_string]. destruct (Ascii.eqb_spec c "000"%char) as [H|H].
  - injection E as <-. rewrite H. destruct (ascii_dec "000" "000"); [|contradiction]. split; reflexivity.
  - destruct (strlen b) as [k|]; [|discriminate E]. cbn [obind] in E. injection E as <-. destruct (IH k eq_refl) as [I1 I2]. cbn [firstn c_string]. destruct (ascii_dec c "000"); [contradiction|]. rewrite I1, I2. split; reflexivity.
Qed.
Theorem C80_names_refuted : forall b x, c_string b = Some x -> exists b', copy_name b = Some b' /\ b' = x /\ c_string b' = None.
Proof.
  intros b x H. assert (E : exists n, strlen b = Some n).
  { revert x H. induction b as [|c b IH]; intros x H; [discriminate H|]. cbn [c_string strlen] in *. destruct (ascii_dec c "000") as [->|N]; [eexists; reflexivity|]. destruct (Ascii.eqb_spec c "000"%char); [contradiction|]. destruct (c_string b) as [y|] eqn:Ey; [|discriminate H]. destruct (IH y eq_refl) as (n0 & ->). eexists; reflexivity. }
  destruct E as (n & E). destruct (strlen_string b n E) as [I1 I2]. exists (firstn n b). unfold copy_name. rewrite E. cbn [obind]. split; [reflexivity|]. split; [congruence|exact I2].
Qed.
Print Assumptions C80_names_refuted.

(** ** Cases *)
(** x^2 - 2, y - x: elim 2 - t^2 with sign as computed, two points *)
Definition jul_g : gens := {| nvars := 2; vnames := ["x"%string; "y"%string]; lens := [2; 2]%nat; exps := [2; 0; 0; 0; 0; 1; 1; 0]; cfs := [(1, 1); (-2, 1); (1, 1); (-1, 1)]; field_char := 0;
  change_var_order := -1; linear_form_base_coef := 0; rand_linear := false; random_linear_form := [] |}.
Definition jul_par : mparam := {| p_nvars := 2; p_elim := [-2; 0; 1]; p_denom := [0; 2]; p_coords := Some [[4]]; p_cfs := [1] |}.
Definition jul_box (a b k : Z) : box := {| val_do := a; k_do := k; val_up := b; k_up := k; bexact := false |}.
Definition jul_r : comp := {| k_b := 0; k_dim := 0; k_dquot := 2; k_par := jul_par; k_pts := [[jul_box (-3) (-2) 1; jul_box (-12) (-11) 3]; [jul_box 2 3 1; jul_box 11 12 3]] |}.
Example C80_ex : param_ok jul_par [[4]] /\ ends_ok (k_pts jul_r) /\ msolve_julia jul_g jul_r = Ok {| x_ld := 3; x_nvars := Some 2; x_dim := 0; x_dquot := Some 2; x_lens := To [3; 2; 2]; x_names := Some ["x"%string; "y"%string]; x_lf := Null; x_cfs := To [-2; 0; 1; 0; 2; 4; 1]; x_nr := 2;
   x_num := To [-3; -2; -12; -11; 2; 3; 11; 12]; x_den := To [1; 1; 3; 3; 1; 1; 3; 3] |}.
Proof.
  split; [repeat split|]. split; [|vm_compute; reflexivity]. intros p b Hp Hb. cbn in Hp. destruct Hp as [<-|[<-|[]]]; destruct Hb as [<-|[<-|[]]]; cbn; lia.
Qed.
(** a form added: x^2 - 2, y - x and the form x + y + A *)
Example C80_form_ex : exists g, attempts 2 [Staircase; Staircase] jul_g [] = Some (true, g) /\ linear_form_base_coef g = 1 /\ form_of g = Ok (To [1; 1; 1]).
Proof. eexists. split; [vm_compute; reflexivity|]. split; reflexivity. Qed.
Definition jul_gp : gens := {| nvars := 2; vnames := ["x"%string; "y"%string]; lens := [2; 2]%nat; exps := [2; 0; 0; 0; 0; 1; 1; 0]; cfs := [(1, 1); (5, 1); (1, 1); (6, 1)]; field_char := 7;
  change_var_order := -1; linear_form_base_coef := 0; rand_linear := false; random_linear_form := [] |}.
Example C80_prime_field_ex : msolve_julia jul_gp {| k_b := 0; k_dim := 0; k_dquot := 2; k_par := no_param 0; k_pts := [] |} = Undef /\ msolve_julia jul_g {| k_b := 2; k_dim := 0; k_dquot := 2; k_par := no_param 0; k_pts := [] |} = Undef.
Proof. split; vm_compute; reflexivity. Qed.
