(** C22: the pair update discards only pairs that are not needed. *)
From Coq Require Import ZArith NArith Arith List Bool Lia Permutation.
From Verif Require Import LinSpec MonoSpec MonoModel MonoSpecProofs MonoCmpProofs MonoDivProofs GbSpec GbProofs LaModel F4Model UpdProofs.
Import ListNotations.
Open Scope Z_scope.

(** Everything that can happen to the basis and to the pair set: new monic polynomials are inserted by update_basis (any
    number, in any order, at any time) and any pairs are taken out of the set. [out] lists the pairs taken out. *)
Inductive history (o : ordering) : basis -> list spair -> list spair -> Prop :=
| h_start : history o {| b_el := []; b_red := []; b_lmps := []; b_lo := O; b_mlt := 0; b_nold := O; b_const := false |} [] []
| h_const b ps out c : history o b ps out ->
    history o {| b_el := b_el b; b_red := b_red b; b_lmps := b_lmps b; b_lo := b_lo b; b_mlt := b_mlt b; b_nold := b_nold b; b_const := c |} ps out
| h_update b ps out news b' ps' : history o b ps out -> Forall (good (o_nv o) (o_lt o)) news ->
    update_basis o b ps (map (mk_elt (o_nev o)) news) = Ok (b', ps') -> history o b' ps' out
| h_select b ps out sel rest : history o b ps out -> Permutation ps (sel ++ rest) -> history o b rest (sel ++ out).

Lemma elt_deg_nonneg nev f : 0 <= elt_deg nev f.
Proof. unfold elt_deg. destruct nev; [unfold tdeg; lia|]. induction f as [|t f IH]; cbn; [lia|]. lia. Qed.
Definition out_rel (out : list spair) (i j : nat) : Prop := exists q, In q out /\ s_g1 q = i /\ s_g2 q = j.
Lemma history_uinv o b ps out : history o b ps out ->
  uinv (o_nv o) b ps (out_rel out) /\ Forall (good (o_nv o) (o_lt o)) (map e_pol (b_el b)) /\
  forall q, In q out -> (s_g1 q < length (b_el b))%nat /\ (s_g2 q < length (b_el b))%nat /\ s_lcm q = mlcm (Lm (b_el b) (s_g1 q)) (Lm (b_el b) (s_g2 q)).
Proof.
  induction 1 as [|b ps out c H IH|b ps out news b' ps' H IH Hn E|b ps out sel rest H IH HP].
  - split; [|split; [constructor|intros q []]]. constructor; cbn [b_el b_red b_lmps b_lo length]; [reflexivity|intros e []|intros q []|intros i j (q & [] & _)|intros; lia| |lia|intros i []|intros; lia|constructor].
    intros D F HD i j Hi. lia.
  - destruct IH as (U & G & Q). split; [|split; assumption]. destruct U. constructor; cbn; assumption.
  - destruct IH as (U & G & Q). pose proof (update_uinv (o_nv o) o b ps (out_rel out) (map (mk_elt (o_nev o)) news) U) as K. rewrite E in K.
    destruct K as (U' & El & _ & _).
    { intros e He. apply in_map_iff in He as (f & <- & Hf). split; [apply elt_deg_nonneg|]. rewrite Forall_forall in Hn. destruct (Hn f Hf) as (l & r & -> & Ll & _). exact Ll. }
    split; [exact U'|]. split.
    + rewrite El, map_app. apply Forall_app. split; [exact G|]. rewrite map_map. cbn [mk_elt e_pol]. rewrite map_id. exact Hn.
    + intros q Hq. destruct (Q q Hq) as (H1 & H2 & H3). rewrite El, app_length. split; [lia|]. split; [lia|]. rewrite H3. unfold Lm. rewrite !app_nth1 by assumption. reflexivity.
  - destruct IH as (U & G & Q). assert (I : forall q, In q ps <-> In q sel \/ In q rest).
    { intros q. rewrite <- in_app_iff. split; apply Permutation_in; [exact HP|symmetry; exact HP]. }
    assert (Q' : forall q, In q (sel ++ out) -> (s_g1 q < length (b_el b))%nat /\ (s_g2 q < length (b_el b))%nat /\ s_lcm q = mlcm (Lm (b_el b) (s_g1 q)) (Lm (b_el b) (s_g2 q))).
    { intros q Hq. apply in_app_or in Hq as [Hq|Hq]; [|apply Q; exact Hq]. destruct (ui_ps _ _ _ _ U q) as (? & ? & ? & _); [apply I; left; exact Hq|]. auto. }
    split; [|split; [exact G|exact Q']]. apply (select_uinv _ _ ps rest (out_rel out)); [exact U| | | |].
    + intros q Hq. apply I. right. exact Hq.
    + intros i j (q & Hq & E). exists q. split; [apply in_or_app; right; exact Hq|exact E].
    + intros i j (q & Hq & <- & <-). destruct (Q' q Hq) as (? & ? & _). auto.
    + intros q Hq. apply I in Hq as [Hq|Hq]; [|left; exact Hq]. right. exists q. split; [apply in_or_app; left; exact Hq|auto].
Qed.
(** The pair update never fails except for exponents that do not fit. *)
Theorem C22_update_total : forall o b ps out news, history o b ps out -> Forall (good (o_nv o) (o_lt o)) news ->
  update_basis o b ps (map (mk_elt (o_nev o)) news) = Limit \/ exists b' ps', update_basis o b ps (map (mk_elt (o_nev o)) news) = Ok (b', ps').
Proof.
  intros o b ps out news H Hn. destruct (history_uinv o b ps out H) as (U & _). pose proof (update_uinv (o_nv o) o b ps (out_rel out) (map (mk_elt (o_nev o)) news) U) as K.
  destruct (update_basis o b ps (map (mk_elt (o_nev o)) news)) as [[b' ps']| | |]; eauto; exfalso; apply K; intros e He; apply in_map_iff in He as (f & <- & Hf); (split; [apply elt_deg_nonneg|]); rewrite Forall_forall in Hn; destruct (Hn f Hf) as (l & r & -> & Ll & _); exact Ll.
Qed.
Print Assumptions C22_update_total.

Lemma fam_D o p els : Forall (good (o_nv o) (o_lt o)) (map e_pol els) ->
  fam (o_nv o) (length els) (Lm els) (fun t i j => D (o_nv o) (o_lt o) p (map e_pol els) t (e_pol (nth i els {| e_deg := 0; e_pol := [] |})) (e_pol (nth j els {| e_deg := 0; e_pol := [] |}))).
Proof.
  intros G. set (d := {| e_deg := 0; e_pol := [] |}). pose proof (o_lt_order o) as MO.
  assert (In' : forall i, (i < length els)%nat -> In (e_pol (nth i els d)) (map e_pol els)) by (intros i Hi; apply in_map; apply nth_In; exact Hi).
  assert (Gd : forall i, (i < length els)%nat -> good (o_nv o) (o_lt o) (e_pol (nth i els d))) by (intros i Hi; rewrite Forall_forall in G; apply G; auto).
  assert (LmE : forall i, Lm els i = lm (e_pol (nth i els d))) by (intros i; unfold Lm, e_lm; fold d; destruct (e_pol (nth i els d)); reflexivity).
  constructor.
  - intros. apply D_refl.
  - intros. apply D_sym. assumption.
  - intros. eapply D_trans; eassumption.
  - intros s t i j Hi Hj Hs Ht. rewrite !LmE. intros D1 D2 D3 HD. apply (D_up _ _ p MO (map e_pol els) s t); auto.
  - intros i j Hi Hj Hc. rewrite !LmE in *. apply product_criterion; auto. apply coprime_lcm; [|exact Hc]. rewrite !(good_len (o_nv o) (o_lt o)); auto.
Qed.

(** C22: after any history, if the S-polynomials of the pairs still in the set and of those taken out have standard
    representations, then all do: the polynomials are a Gröbner basis of the ideal they generate. *)
Theorem C22_pairs_complete : forall o p b ps out, 1 < p -> history o b ps out ->
  (forall q f g a c, In q (ps ++ out) -> nth_error (map e_pol (b_el b)) (s_g1 q) = Some f -> nth_error (map e_pol (b_el b)) (s_g2 q) = Some g ->
     is_lead (o_nv o) (o_lt o) p (cf f) a -> is_lead (o_nv o) (o_lt o) p (cf g) c ->
     std_rep (o_nv o) (o_lt o) p (pfs (map e_pol (b_el b))) (mlcm a c) (spoly (mlcm a c) (cf f) a (cf g) c)) ->
  groebner (o_nv o) (o_lt o) p (pfs (map e_pol (b_el b))).
Proof.
  intros o p b ps out Hp H HR. destruct (history_uinv o b ps out H) as (U & G & Q). pose proof (o_lt_order o) as MO.
  assert (P1 : ~ eqp p 1 0) by (intros K; apply Z.divide_pos_le in K; lia). set (els := b_el b) in *. set (dd := {| e_deg := 0; e_pol := [] |}).
  apply buchberger_groebner; [exact MO|exact P1|exact G|]. intros f g Hf Hg. apply in_map_iff in Hf as (ef & <- & Hf). apply in_map_iff in Hg as (eg & <- & Hg).
  apply In_nth_error in Hf as (i & Hi). apply In_nth_error in Hg as (j & Hj).
  assert (Li : (i < length els)%nat) by (apply nth_error_Some; congruence). assert (Lj : (j < length els)%nat) by (apply nth_error_Some; congruence).
  pose proof (ui_cov _ _ _ _ U _ (fam_D o p els G)) as C. fold els in C.
  assert (LmE : forall k e, nth_error els k = Some e -> Lm els k = lm (e_pol e)) by (intros k e He; rewrite (Lm_nth _ _ _ He); unfold e_lm; destruct (e_pol e); reflexivity).
  specialize (C) with (i := i) (j := j). rewrite (LmE _ _ Hi), (LmE _ _ Hj) in C. rewrite (nth_error_nth _ _ _ Hi), (nth_error_nth _ _ _ Hj) in C. apply C; [|exact Li|exact Lj]. clear C Hi Hj Li Lj i j.
  assert (All : forall q, In q (ps ++ out) -> (s_g1 q < length els)%nat /\ (s_g2 q < length els)%nat).
  { intros q Hq. apply in_app_or in Hq as [Hq|Hq]; [destruct (ui_ps _ _ _ _ U q Hq) as (? & ? & _)|destruct (Q q Hq) as (? & ? & _)]; auto. }
  assert (Key : forall q, In q (ps ++ out) -> D (o_nv o) (o_lt o) p (map e_pol els) (mlcm (Lm els (s_g1 q)) (Lm els (s_g2 q))) (e_pol (nth (s_g1 q) els dd)) (e_pol (nth (s_g2 q) els dd))).
  { intros q Hq. destruct (All q Hq) as [L1 L2]. destruct (nth_error els (s_g1 q)) as [e1|] eqn:E1; [|apply nth_error_None in E1; lia]. destruct (nth_error els (s_g2 q)) as [e2|] eqn:E2; [|apply nth_error_None in E2; lia].
    rewrite (LmE _ _ E1), (LmE _ _ E2), (nth_error_nth _ _ dd E1), (nth_error_nth _ _ dd E2).
    assert (G1 : good (o_nv o) (o_lt o) (e_pol e1)) by (rewrite Forall_forall in G; apply G; apply in_map; eapply nth_error_In; eassumption).
    assert (G2 : good (o_nv o) (o_lt o) (e_pol e2)) by (rewrite Forall_forall in G; apply G; apply in_map; eapply nth_error_In; eassumption).
    specialize (HR q (e_pol e1) (e_pol e2) (lm (e_pol e1)) (lm (e_pol e2)) Hq). rewrite !nth_error_map, E1, E2 in HR. specialize (HR eq_refl eq_refl (good_lead _ _ _ MO P1 _ G1) (good_lead _ _ _ MO P1 _ G2)).
    revert HR. unfold std_rep, D, Rep. apply lspan_mono. intros h (u & f' & l & Lu & (f0 & Hf0 & ->) & Hl & Hlt & ->). apply ls_in. exists u, f0. split; [exact Hf0|]. split; [exact Lu|]. split; [|reflexivity].
    rewrite Forall_forall in G. rewrite (lead_unique _ _ _ MO _ _ _ (good_lead _ _ _ MO P1 _ (G f0 Hf0)) Hl). exact Hlt. }
  intros i j [(q & Hq & <- & <-)|(q & Hq & <- & <-)]; apply Key; apply in_or_app; auto.
Qed.
Print Assumptions C22_pairs_complete.

(** The set is really reduced: for x^2*y - 1, x*y^2 - x and y^3 + 2 (degree reverse lexicographic order) only two of the three
    pairs are kept. *)
Definition ord2 : ordering := {| o_nv := 2%nat; o_nev := 0%nat; o_mo := 0%nat |}.
Definition hist_ex : list (list (Z * mono)) := [[(1, [2; 1]%N); (100, [0; 0]%N)]; [(1, [1; 2]%N); (100, [1; 0]%N)]; [(1, [0; 3]%N); (2, [0; 0]%N)]].
Example C22_ex : exists b ps, history ord2 b ps [] /\ length (b_el b) = 3%nat /\ map (fun q => (s_g1 q, s_g2 q)) ps = [(0, 1); (1, 2)]%nat.
Proof.
  set (b0 := {| b_el := []; b_red := []; b_lmps := []; b_lo := O; b_mlt := 0; b_nold := O; b_const := false |}).
  destruct (update_basis ord2 b0 [] (map (mk_elt 0) hist_ex)) as [[b ps]| | |] eqn:E; try (vm_compute in E; discriminate).
  exists b, ps. split; [apply (h_update ord2 b0 [] [] hist_ex b ps); [apply h_start| |exact E]|vm_compute in E; injection E as <- <-; split; reflexivity].
  unfold hist_ex. repeat constructor; eexists _, _; (split; [reflexivity|]); (split; [reflexivity|]); intros t [<-|[]]; (split; [reflexivity|]); cbn; left; cbn; lia.
Qed.
