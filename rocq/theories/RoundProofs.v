(** One round of F4 and the main loop: invariants and termination. *)
From Coq Require Import ZArith NArith Arith List Bool Lia Permutation Znumtheory Wf_nat.
From Verif Require Import LinSpec MonoSpec MonoModel MonoSpecProofs MonoCmpProofs GbSpec GbProofs LaModel LaSpec LaProps F4Model UpdProofs UpdProps F4Rows SymbProofs SelProofs MatProofs Dickson GbIdeal.
Import ListNotations.
Open Scope Z_scope.

(** What is assumed of the parts of a run that the input does not determine: sort_r sorts, every thread gets to work often
    enough; and of the options: a supported ordering, a prime of the size the kernel is chosen for. *)
Record cfg_ok (c : config) : Prop := {
  ck_o : o_ok (c_o c);
  ck_p : prime (c_p c);
  ck_k : in_class (c_k c) (c_p c);
  ck_m : (1 <= c_mnsel c)%nat;
  ck_sort : forall r, sort_ok (c_o c) (c_sort c r);
  ck_sched : forall r n t i, (i < t)%nat -> ((n + 2) * (n + 3) <= count_occ Nat.eq_dec (c_sched c r n t) i)%nat }.

Lemma cols_fit_ok k p n : cols_fit k p n = true -> columns_ok k p n.
Proof. unfold cols_fit, columns_ok. destruct k; auto; intros H; right; apply Z.leb_le; exact H. Qed.

Lemma cfg_p c : cfg_ok c -> 1 < c_p c.
Proof. intros CK. pose proof (prime_ge_2 _ (ck_p c CK)). lia. Qed.

Section Run.
Variable c : config.
Hypothesis CK : cfg_ok c.
Let o := c_o c.
Let nv := o_nv o.
Let lt := o_lt o.
Let p := c_p c.
Let MO : mono_order nv lt := o_lt_order o.
Let Hp : 1 < p := cfg_p c CK.


Definition dd : elt := {| e_deg := 0; e_pol := [] |}.
Definition polys (b : basis) : list (list (Z * mono)) := map e_pol (b_el b).
Definition Drel (els : list elt) (G : list (list (Z * mono))) (i j : nat) : Prop :=
  (i < length els)%nat /\ (j < length els)%nat /\ D nv lt p G (mlcm (Lm els i) (Lm els j)) (e_pol (nth i els dd)) (e_pol (nth j els dd)).

(** F: the monic generators *)
Record finv (F : list (list (Z * mono))) (b : basis) (ps : list spair) : Prop := {
  fi_u : uinv nv b ps (Drel (b_el b) (polys b));
  fi_els : els_ok nv lt p (b_el b);
  fi_lo : b_lo b = length (b_el b);
  fi_gen : forall f, In f F -> In f (polys b);
  fi_ideal : forall f, In f (polys b) -> ideal nv p (pfs F) (cf f);
  fi_const : b_const b = true -> exists f, In f (polys b) /\ lmono f = mone nv }.

Lemma Lm_lm els i : Lm els i = lm (e_pol (nth i els dd)).
Proof. reflexivity. Qed.
Lemma els_good els : els_ok nv lt p els -> Forall (good nv lt) (map e_pol els).
Proof. intros H. apply Forall_forall. intros f Hf. apply in_map_iff in Hf as (e & <- & He). apply (mpoly_good nv lt p). apply H. exact He. Qed.
Lemma pmul_one (f : pf) m : length m = nv -> pmul (mone nv) f m = f m.
Proof. intros H. rewrite <- (mmul_one_l m nv H) at 1. apply (pmul_at nv); [apply mone_length|exact H]. Qed.

(** a linear combination of rows of the matrix with leading monomials below t *)
Lemma rows_below els rr news t f : els_ok nv lt p els -> length t = nv -> (forall r, In r rr -> mrow nv els r) -> (forall r, In r news -> mpoly nv lt p r) ->
  NoDup (map lmono (rr ++ news)) -> lspan nv p (pfs (rr ++ news)) f -> (forall m, length m = nv -> lt t m \/ m = t -> eqp p (f m) 0) ->
  Rep nv lt p (map e_pol els ++ news) t f.
Proof.
  intros HE Ht Hrr Hnw ND Hf Hz. assert (GR : Forall (good nv lt) (rr ++ news)).
  { apply Forall_forall. intros r Hr. apply (mpoly_good nv lt p). apply in_app_or in Hr as [Hr|Hr]; [eapply mrow_mpoly; eauto|auto]. }
  pose proof (distinct_leads nv lt p MO t Ht (length (rr ++ news)) (rr ++ news) f eq_refl GR ND Hf Hz) as K.
  eapply lspan_mono; [|exact K]. intros h (r & Hr & Hl & ->). apply in_app_or in Hr as [Hr|Hr].
  - destruct (Hrr r Hr) as (e & u & He & Lu & ->). pose proof (HE e He) as Me. eapply lspan_ext; [apply ls_in; exists u, (e_pol e); split; [apply in_or_app; left; apply in_map; exact He|]; split; [exact Lu|]; split; [|reflexivity]|].
    + change (lm (mulp u (e_pol e))) with (lmono (mulp u (e_pol e))) in Hl. rewrite lmono_mulp in Hl by (apply Me). exact Hl.
    + intros m Hm. apply (cf_mulp nv); auto. intros s Hs. apply (mpoly_terms nv lt p _ _ Me Hs).
  - eapply lspan_ext; [apply ls_in; exists (mone nv), r; split; [apply in_or_app; right; exact Hr|]; split; [apply mone_length|]; split; [|reflexivity]|].
    + rewrite mmul_one_l; [exact Hl|]. apply (mpoly_lm nv lt p r (Hnw r Hr)).
    + intros m Hm. symmetry. apply pmul_one. exact Hm.
Qed.

Lemma row_cf els e u : els_ok nv lt p els -> In e els -> length u = nv -> forall m, length m = nv -> cf (mulp u (e_pol e)) m = pmul u (cf (e_pol e)) m.
Proof. intros HE He Lu m Hm. apply (cf_mulp nv); auto. intros s Hs. apply (mpoly_terms nv lt p _ _ (HE e He) Hs). Qed.

Lemma elt_deg_0 f : mpoly nv lt p f -> elt_deg (o_nev o) f = 0 -> lmono f = mone nv.
Proof.
  intros Mf H. assert (T : tdeg (lmono f) = 0).
  { unfold elt_deg in H. destruct (o_nev o); [exact H|]. destruct (mpoly_lm_in nv lt p f Mf) as (t & Ht & <-). clear Mf. assert (tdeg (snd t) <= 0); [|unfold tdeg in *; lia]. rewrite <- H. clear H. induction f as [|s f IH]; [destruct Ht|]. cbn [fold_right]. destruct Ht as [->|Ht]; [lia|]. specialize (IH Ht). lia. }
  destruct (mpoly_lm nv lt p f Mf) as [_ Ll]. apply ex_eq; [rewrite mone_length; exact Ll|]. intros i. rewrite ex_mone. assert (Md : mdeg (lmono f) = 0%N) by (unfold tdeg in T; lia). clear - Md. revert i Md. generalize (lmono f). intros l. induction l as [|x l IH]; intros i Md; [destruct i; reflexivity|].
  cbn in Md. assert (x = 0 /\ mdeg l = 0)%N as [-> Ml] by (unfold mdeg in *; lia). destruct i as [|i]; [reflexivity|]. apply IH. exact Ml.
Qed.

(** no old leading monomial divides a monomial that symbolic preprocessing found irreducible *)
Lemma irreducible F b ps m : finv F b ps -> length m = nv -> ~ divis (b_el b) (b_lmps b) m -> forall f, In f (polys b) -> ~ mdvd (lmono f) m.
Proof.
  intros HI Lm' Hn f Hf Hd. apply in_map_iff in Hf as (e & <- & He). apply In_nth_error in He as (i & Hi). assert (Li : (i < length (b_el b))%nat) by (apply nth_error_Some; congruence).
  pose proof (fi_u _ _ _ HI) as U. assert (K : forall r, (r < length (b_el b))%nat -> isred (b_red b) r = false -> mdvd (Lm (b_el b) r) m -> False).
  { intros r Hr Hred Hrd. apply Hn. destruct (nth_error (b_el b) r) as [g|] eqn:Eg; [|apply nth_error_None in Eg; lia]. exists r, g. split; [apply (ui_all _ _ _ _ U); [rewrite (fi_lo _ _ _ HI); exact Hr|exact Hred]|]. split; [exact Eg|]. rewrite (Lm_nth _ _ _ Eg) in Hrd. exact Hrd. }
  destruct (isred (b_red b) i) eqn:Er.
  - destruct (ui_dom _ _ _ _ U i Li Er) as (r & Hr & Hred & Hrd). apply (K r Hr Hred). rewrite (Lm_nth _ _ _ Hi) in Hrd. eapply mdvd_trans; [exact Hrd|exact Hd].
  - apply (K i Li Er). rewrite (Lm_nth _ _ _ Hi). exact Hd.
Qed.

Definition progress (b b' : basis) (ps ps' : list spair) : Prop :=
  (exists f fs, polys b' = polys b ++ f :: fs /\ length (lmono f) = nv /\ forall g, In g (polys b) -> ~ mdvd (lmono g) (lmono f)) \/
  polys b' = polys b /\ (length ps' < length ps)%nat.

Lemma round_ok F r b ps : finv F b ps -> ps <> [] ->
  exists N, forall fuel, okn fuel N (round c fuel r b ps) (fun a => finv F (fst a) (snd a) /\ progress b (fst a) ps (snd a)).
Proof.
  intros HI Hne. destruct HI as [U HE Hlo HG HId HC] eqn:EHI. clear EHI. destruct (round_matrix_ok c r b ps _ (ck_o c CK) Hp (ck_m c CK) (ck_sort c CK r) U HE Hne) as (N & HN). exists N. intros fuel. unfold round.
  eapply okn_bind; [apply HN|]. intros [[rest cols] [rr tr]] (sel & sht & leads & SelS & -> & MS). destruct MS as [M1 M2 M3 M4 M5 M6 M7 M8 M9]. fold o nv in M2, M6, M7.
  set (els := b_el b) in *. apply okl_okn.
  pose (hcm := fst (columns (c_o c) sht leads) ++ snd (columns (c_o c) sht leads)).
  assert (RR : okl (round_rows c r (columns (c_o c) sht leads) rr tr) (new_rows o p sht leads rr tr)).
  { unfold round_rows. fold hcm. unfold when. destruct (cols_fit (c_k c) (c_p c) (length hcm)) eqn:Ef; cbn [rbind okl]; [|exact I].
    destruct (round_rows_ok o p (ck_o c CK) (c_k c) sht leads els rr tr (ck_p c CK) (ck_k c CK) HE M1 M2 M3 M4 M5 M6 M7 (c_sched c r (length hcm) (length tr))) as (l & news & E1 & E2 & E3).
    - intros i Hi. apply (ck_sched c CK). exact Hi.
    - apply cols_fit_ok. exact Ef.
    - change (fst (columns o sht leads) ++ snd (columns o sht leads)) with hcm in *. change (fst (columns (c_o c) sht leads)) with (fst (columns o sht leads)). unfold p in E1. rewrite E1. cbn [of_opt rbind]. rewrite E2. exact E3. }
  destruct (round_rows c r (columns (c_o c) sht leads) rr tr) as [news| | |]; cbn [okl rbind] in *; [|exact I|contradiction|contradiction].
  destruct RR as [R1 R2 R3 R4 R5]. fold nv lt in R1, R4, R5. set (elts := map (mk_elt (o_nev (c_o c))) news). set (b1 := {| b_el := els; b_red := b_red b; b_lmps := b_lmps b; b_lo := b_lo b; b_mlt := b_mlt b; b_nold := b_nold b; b_const := b_const b || existsb (fun e => e_deg e =? 0) elts |}).
  (* leads *)
  assert (NDl : NoDup (map lmono (rr ++ news))).
  { rewrite map_app. assert (A : NoDup (map lmono rr)) by (eapply Permutation_NoDup; [symmetry; exact M5|exact M3]). assert (B : forall m, In m (map lmono rr) -> ~ In m (map lmono news)).
    { intros m H1 H2. apply (Permutation_in _ M5) in H1. apply in_map_iff in H2 as (f & <- & Hf). destruct (mpoly_lm_in nv lt p f (R1 f Hf)) as (t & Ht & Et). apply (proj2 (R2 f t Hf Ht)). rewrite Et. exact H1. }
    revert A B. generalize (map lmono rr). intros l. induction l as [|x l IH]; cbn; intros A B; [exact R3|]. inversion A; subst. constructor; [|apply IH; auto]. intros K. apply in_app_or in K as [K|K]; [contradiction|]. apply (B x); auto. }
  assert (NewIrr : forall f, In f news -> length (lmono f) = nv /\ forall g, In g (polys b) -> ~ mdvd (lmono g) (lmono f)).
  { intros f Hf. destruct (mpoly_lm_in nv lt p f (R1 f Hf)) as (t & Ht & Et). destruct (R2 f t Hf Ht) as [S1 S2]. rewrite Et in S1, S2. split; [apply M2; exact S1|]. apply (irreducible F b ps); [exact HI|apply M2; exact S1|]. destruct (M8 _ S1) as [K|K]; [contradiction|exact K]. }
  (* pairs *)
  set (Dn1 := Drel els (map e_pol els ++ news)).
  assert (U1 : uinv nv b1 rest Dn1).
  { assert (U0 : uinv nv b1 ps (Drel els (polys b))) by (destruct U; constructor; assumption). eapply select_uinv; [exact U0| | | |].
    - intros q Hq. apply (Permutation_in _ (Permutation_sym (ss_perm _ _ _ _ _ SelS))). apply in_or_app. right. exact Hq.
    - intros i j (H1 & H2 & H3). split; [exact H1|]. split; [exact H2|]. eapply Rep_incl; [|exact H3]. intros g Hg. apply in_or_app. left. exact Hg.
    - intros i j (H1 & H2 & _). split; assumption.
    - intros q Hq. pose proof (Permutation_in _ (ss_perm _ _ _ _ _ SelS) Hq) as Hq'. apply in_app_or in Hq' as [Hs|Hr]; [right|left; exact Hr]. destruct (ui_ps _ _ _ _ U q Hq) as (L1 & L2 & E & _). fold els in L1, L2, E. split; [exact L1|]. split; [exact L2|].
      destruct (nth_error els (s_g1 q)) as [e1|] eqn:E1; [|apply nth_error_None in E1; lia]. destruct (nth_error els (s_g2 q)) as [e2|] eqn:E2; [|apply nth_error_None in E2; lia].
      pose proof (M9 q (s_g1 q) e1 Hs (or_introl eq_refl) E1) as Q1. pose proof (M9 q (s_g2 q) e2 Hs (or_intror eq_refl) E2) as Q2. rewrite (nth_error_nth _ _ dd E1), (nth_error_nth _ _ dd E2), <- E.
      rewrite (Lm_nth _ _ _ E1), (Lm_nth _ _ _ E2) in E. pose proof (nth_error_In _ _ E1) as I1. pose proof (nth_error_In _ _ E2) as I2. pose proof (HE e1 I1) as G1. pose proof (HE e2 I2) as G2.
      destruct (mpoly_lm nv lt p _ G1) as [_ Ln1]. destruct (mpoly_lm nv lt p _ G2) as [_ Ln2]. fold (e_lm e1) in Ln1. fold (e_lm e2) in Ln2. assert (Lt : length (s_lcm q) = nv) by (rewrite E, mlcm_length; rewrite Ln1; auto).
      assert (Dv1 : mdvd (e_lm e1) (s_lcm q)) by (rewrite E; apply mlcm_dvd_l; congruence). assert (Dv2 : mdvd (e_lm e2) (s_lcm q)) by (rewrite E; apply mlcm_dvd_r; congruence).
      assert (Lu1 : length (mquo (s_lcm q) (e_lm e1)) = nv) by (rewrite mquo_length; congruence). assert (Lu2 : length (mquo (s_lcm q) (e_lm e2)) = nv) by (rewrite mquo_length; congruence).
      assert (Tp1 : mmul (mquo (s_lcm q) (e_lm e1)) (e_lm e1) = s_lcm q) by (rewrite mmul_comm by congruence; apply (mul_quo nv); assumption).
      assert (Tp2 : mmul (mquo (s_lcm q) (e_lm e2)) (e_lm e2) = s_lcm q) by (rewrite mmul_comm by congruence; apply (mul_quo nv); assumption).
      unfold D. apply (rows_below els rr news (s_lcm q)); auto; [intros x Hx; apply (M6 x Hx)| |].
      + eapply lspan_ext; [apply lspan_sub; [apply (R5 _ Q1)|apply (R5 _ Q2)]|]. intros m Hm. unfold spol. cbv beta. rewrite (row_cf els e1), (row_cf els e2) by auto. reflexivity.
      + intros m Hm Hcase. unfold spol. change (lm (e_pol e1)) with (e_lm e1). change (lm (e_pol e2)) with (e_lm e2). pose proof (mpoly_good nv lt p _ G1) as GG1. pose proof (mpoly_good nv lt p _ G2) as GG2. destruct Hcase as [Hl| ->].
        * rewrite (mul_above nv lt MO (e_pol e1)), (mul_above nv lt MO (e_pol e2)); auto; [reflexivity| |].
          -- change (lm (e_pol e2)) with (e_lm e2). rewrite Tp2. exact Hl.
          -- change (lm (e_pol e1)) with (e_lm e1). rewrite Tp1. exact Hl.
        * pose proof (mul_lc nv lt MO (e_pol e1) _ GG1 Lu1) as C1. pose proof (mul_lc nv lt MO (e_pol e2) _ GG2 Lu2) as C2. change (lm (e_pol e1)) with (e_lm e1) in C1. change (lm (e_pol e2)) with (e_lm e2) in C2. rewrite Tp1 in C1. rewrite Tp2 in C2. rewrite C1, C2. reflexivity. }
  assert (Hel : forall e, In e elts -> 0 <= e_deg e /\ length (e_lm e) = nv).
  { intros e He. apply in_map_iff in He as (f & <- & Hf). split; [apply elt_deg_nonneg|]. apply (proj1 (NewIrr f Hf)). }
  pose proof (update_uinv nv (c_o c) b1 rest Dn1 elts U1 Hel) as UU. destruct (update_basis (c_o c) b1 rest elts) as [[b' ps']| | |] eqn:EU; cbn [okl fst snd]; auto. destruct UU as (U' & Eel & Elo & Ec). cbn [b1 b_el b_const] in Eel, Ec. fold els in Eel.
  assert (Pel : map e_pol elts = news) by (unfold elts; rewrite map_map; cbn [mk_elt e_pol]; apply map_id).
  assert (Pol : polys b' = polys b ++ news) by (unfold polys; rewrite Eel, map_app, Pel; reflexivity).
  split; [constructor|].
  - eapply select_uinv; [exact U'|auto| |intros i j (H1 & H2 & _); split; assumption|auto]. intros i j (H1 & H2 & H3). split; [rewrite Eel, app_length; lia|]. split; [rewrite Eel, app_length; lia|]. unfold polys. rewrite Eel, map_app, Pel. unfold Lm in *. fold dd in *. rewrite !app_nth1 by assumption. exact H3.
  - intros e He. rewrite Eel in He. apply in_app_or in He as [He|He]; [apply HE; exact He|]. apply in_map_iff in He as (f & <- & Hf). apply R1. exact Hf.
  - exact Elo.
  - intros f Hf. rewrite Pol. apply in_or_app. left. apply HG. exact Hf.
  - intros f Hf. rewrite Pol in Hf. apply in_app_or in Hf as [Hf|Hf]; [apply HId; exact Hf|]. eapply lspan_mono; [|apply (R4 f Hf)]. intros h (rw & Hrw & ->). assert (Mr : mrow nv els rw) by (apply in_app_or in Hrw as [H|H]; [apply (M6 _ H)|apply (M7 _ H)]). destruct Mr as (e & u & He & Lu & ->).
    eapply lspan_ext; [|intros m Hm; apply (row_cf els e u HE He Lu m Hm)]. assert (Ie : ideal nv p (pfs F) (cf (e_pol e))) by (apply HId; apply in_map; exact He). apply ideal_mul; assumption.
  - rewrite Ec. intros K. apply orb_prop in K as [K|K].
    + destruct (HC K) as (f & Hf & E). exists f. rewrite Pol. split; [apply in_or_app; left; exact Hf|exact E].
    + apply existsb_exists in K as (e & He & K). apply in_map_iff in He as (f & <- & Hf). cbn [mk_elt e_deg] in K. apply Z.eqb_eq in K. exists f. rewrite Pol. split; [apply in_or_app; right; exact Hf|]. apply elt_deg_0; [apply R1; exact Hf|exact K].
  - destruct news as [|f fs].
    + right. split; [rewrite Pol, app_nil_r; reflexivity|]. unfold elts in EU. cbn [map] in EU. unfold update_basis in EU. cbn [insert_all rbind] in EU. injection EU as _ <-. pose proof (Permutation_length (ss_perm _ _ _ _ _ SelS)) as PL. rewrite app_length in PL. pose proof (ss_ne _ _ _ _ _ SelS Hne). destruct sel; [congruence|]. cbn in PL. lia.
    + left. exists f, fs. split; [exact Pol|]. apply NewIrr. left. reflexivity.
Qed.

(** more steps do not change the result of a round *)
Lemma round_mono fuel fuel' r b ps : (fuel <= fuel')%nat -> round c fuel r b ps <> More -> round c fuel' r b ps = round c fuel r b ps.
Proof.
  intros Hf Hn. assert (E : round_matrix c fuel' r b ps = round_matrix c fuel r b ps); [|unfold round; rewrite E; reflexivity].
  assert (Hn' : round_matrix c fuel r b ps <> More) by (intros K; apply Hn; unfold round; rewrite K; reflexivity). clear Hn. unfold round_matrix in *.
  destruct (rmap (run_rows (b_el b)) _) as [rows| | |]; cbn [rbind] in *; try reflexivity. destruct (rmap _ rows) as [rr0| | |]; cbn [rbind] in *; try reflexivity.
  rewrite (symb_mono (b_el b) (b_lmps b) _ _ fuel fuel'); [reflexivity|exact Hf|]. intros K. apply Hn'. rewrite K. reflexivity.
Qed.

Theorem loop_ok F (l : list mono) : forall r b ps, finv F b ps -> (forall x, In x l -> length x = nv /\ exists f, In f (polys b) /\ lmono f = x) ->
  exists N, forall fuel, okn fuel N (f4_loop c fuel r b ps) (fun b' => exists ps', finv F b' ps' /\ done b' ps' = true).
Proof.
  induction (dickson nv l) as [l _ IHl]. intros r b ps. remember (length ps) as n eqn:En. revert r b ps En. induction n as [n IHn] using lt_wf_ind. intros r b ps En HI Hl.
  destruct (done b ps) eqn:Ed; [exists O; intros fuel; destruct fuel; cbn [f4_loop]; rewrite Ed; cbn [okn]; exists ps; auto|].
  assert (Hne : ps <> []) by (intros ->; unfold done in Ed; rewrite orb_true_r in Ed; discriminate).
  destruct (round_ok F r b ps HI Hne) as (N1 & H1). pose proof (H1 N1) as HX. destruct (round c N1 r b ps) as [[b' ps']| | |] eqn:EX; cbn [okn] in HX.
  - destruct HX as (HI' & HP). cbn [fst snd] in HI', HP. assert (IH : exists N, forall fuel, okn fuel N (f4_loop c fuel (S r) b' ps') (fun b' => exists ps', finv F b' ps' /\ done b' ps' = true)).
    { destruct HP as [(f & fs & Ep & Lf & Hd)|[Ep Hlen]].
      - apply (IHl (lmono f :: l)); [exists (lmono f); split; [reflexivity|]|exact HI'|].
        + intros y Hy K. destruct (Hl y Hy) as (Ly & g & Hg & <-). apply (Hd g Hg). apply K; [exact Ly|exact Lf].
        + intros x [<-|Hx]; [split; [exact Lf|]; exists f; rewrite Ep; split; [apply in_or_app; right; left; reflexivity|reflexivity]|]. destruct (Hl x Hx) as (Lx & g & Hg & E). split; [exact Lx|]. exists g. rewrite Ep. split; [apply in_or_app; left; exact Hg|exact E].
      - apply (IHn (length ps')); [lia|reflexivity|exact HI'|]. intros x Hx. destruct (Hl x Hx) as (Lx & g & Hg & E). split; [exact Lx|]. exists g. rewrite Ep. auto. }
    destruct IH as (N2 & H2). exists (S (Nat.max N1 N2)). intros [|fuel]; cbn [f4_loop]; rewrite Ed; [cbn [okn]; lia|]. assert (ER : round c (S fuel) r b ps = More /\ (S fuel < N1)%nat \/ round c (S fuel) r b ps = Ok (b', ps')).
    { destruct (round c (S fuel) r b ps) as [a| | |] eqn:E2.
      - right. destruct (Nat.le_ge_cases (S fuel) N1) as [L|L].
        + rewrite <- E2, <- (round_mono (S fuel) N1 r b ps L), EX; [reflexivity|rewrite E2; discriminate].
        + rewrite <- E2, (round_mono N1 (S fuel) r b ps L), EX; [reflexivity|rewrite EX; discriminate].
      - right. destruct (Nat.le_ge_cases (S fuel) N1) as [L|L].
        + rewrite <- E2, <- (round_mono (S fuel) N1 r b ps L), EX; [reflexivity|rewrite E2; discriminate].
        + rewrite <- E2, (round_mono N1 (S fuel) r b ps L), EX; [reflexivity|rewrite EX; discriminate].
      - left. split; [reflexivity|]. pose proof (H1 (S fuel)) as K. rewrite E2 in K. exact K.
      - pose proof (H1 (S fuel)) as K. rewrite E2 in K. destruct K. }
    destruct ER as [[-> L]| ->]; cbn [rbind okn]; [lia|]. specialize (H2 fuel). destruct (f4_loop c fuel (S r) b' ps'); cbn [okn] in *; auto. lia.
  - exists (S N1). intros [|fuel]; cbn [f4_loop]; rewrite Ed; [cbn [okn]; lia|]. destruct (Nat.le_ge_cases N1 (S fuel)) as [L|L].
    + rewrite (round_mono N1 (S fuel) r b ps L), EX; [exact I|rewrite EX; discriminate].
    + specialize (H1 (S fuel)). destruct (round c (S fuel) r b ps) as [a| | |] eqn:E2; cbn [rbind okn] in *; auto; try lia. assert (K : round c N1 r b ps = Ok a) by (rewrite (round_mono (S fuel) N1 r b ps L), E2; [reflexivity|rewrite E2; discriminate]). congruence.
  - lia.
  - contradiction.
Qed.

(** when the loop stops, the elements are a Gröbner basis *)
Theorem done_groebner F b ps : finv F b ps -> done b ps = true -> same_ideal nv p (pfs F) (pfs (polys b)) /\ groebner nv lt p (pfs (polys b)).
Proof.
  intros HI Hd. pose proof (els_good _ (fi_els _ _ _ HI)) as HG. fold (polys b) in HG. split.
  - apply (same_ideal_intro nv p); [|intros g (f & Hf & ->); apply (fi_ideal _ _ _ HI); exact Hf]. intros g (f & Hf & ->). apply ideal_gen. exists f. split; [apply (fi_gen _ _ _ HI); exact Hf|reflexivity].
  - unfold done in Hd. apply orb_prop in Hd as [Hd|Hd].
    + destruct (fi_const _ _ _ HI Hd) as (f & Hf & E). intros h m _ (Lm' & _). exists (cf f), (lm f). split; [exists f; auto|]. rewrite Forall_forall in HG. split; [apply good_lead; [exact MO|apply P1; exact Hp|apply HG; exact Hf]|]. change (lm f) with (lmono f). rewrite E. intros i. rewrite ex_mone. lia.
    + destruct ps as [|q ps]; [|discriminate]. apply buchberger_groebner; [exact MO|apply P1; exact Hp|exact HG|]. intros f g Hf Hg. apply in_map_iff in Hf as (ef & <- & Hf). apply in_map_iff in Hg as (eg & <- & Hg). apply In_nth_error in Hf as (i & Hi). apply In_nth_error in Hg as (j & Hj).
      assert (Li : (i < length (b_el b))%nat) by (apply nth_error_Some; congruence). assert (Lj : (j < length (b_el b))%nat) by (apply nth_error_Some; congruence).
      pose proof (ui_cov _ _ _ _ (fi_u _ _ _ HI) _ (fam_D o p (b_el b) HG)) as C. specialize (C) with (i := i) (j := j). rewrite (Lm_nth _ _ _ Hi), (Lm_nth _ _ _ Hj), (nth_error_nth _ _ _ Hi), (nth_error_nth _ _ _ Hj) in C. apply C; auto.
      intros i' j' [(q & [] & _)|(_ & _ & K)]. exact K.
Qed.
End Run.
