(** The learning run is the ordinary run; what a learned trace contains. *)
From Coq Require Import ZArith NArith Arith List Bool Lia Permutation Sorted Znumtheory.
From Verif Require Import LinSpec MonoSpec MonoModel MonoSpecProofs MonoCmpProofs GbSpec GbProofs GbIdeal LaModel LaSpec LaProofs LaRowProofs LaSysProofs LaProps F4Model UpdProofs UpdProps F4Rows SymbProofs SelProofs MatProofs RoundProofs FinalProofs F4Props TraceModel TraceLaProofs TraceProofs.
Import ListNotations.
Open Scope Z_scope.

Lemma insert_all_el o news : forall b ps b' ps', insert_all o b ps news = Ok (b', ps') -> b_el b' = b_el b ++ news.
Proof.
  induction news as [|e news IH]; intros b ps b' ps' H; cbn [insert_all] in H; [injection H as <- <-; symmetry; apply app_nil_r|].
  unfold insert_pairs in H. unfold when in H. destruct (forallb _ _); [|discriminate]. cbn [rbind] in H. destruct (rmap _ ps); try discriminate. cbn [rbind] in H. apply IH in H. rewrite H. cbn [b_el]. rewrite <- app_assoc. reflexivity.
Qed.
Lemma update_el o b ps news b' ps' : update_basis o b ps news = Ok (b', ps') -> b_el b' = b_el b ++ news.
Proof.
  unfold update_basis. destruct (insert_all o b ps news) as [[b1 ps1]| | |] eqn:E; try discriminate. cbn [rbind]. intros H. injection H as <- <-. cbn [b_el]. eapply insert_all_el; exact E.
Qed.

(** the rounds of a trace, started from the elements els, end with els' *)
Inductive trace_rel (o : ordering) (k : kern) (p : Z) : list elt -> list tdata -> list elt -> Prop :=
| tr_nil els : trace_rel o k p els [] els
| tr_round els d ds news rr tr els' : els_ok (o_nv o) (o_lt o) p els -> round_td o k p els d news rr tr -> trace_rel o k p (els ++ map (mk_elt (o_nev o)) news) ds els' ->
    trace_rel o k p els (d :: ds) els'.
Lemma trace_rel_app o k p els ds els1 ds' els2 : trace_rel o k p els ds els1 -> trace_rel o k p els1 ds' els2 -> trace_rel o k p els (ds ++ ds') els2.
Proof. intros H H'. induction H; [exact H'|]. cbn. econstructor; eauto. Qed.

Section Run.
Variable c : config.
Hypothesis CK : cfg_ok c.
Let o := c_o c.
Let k := c_k c.
Let p := c_p c.

Definition fst3 {A B C} (a : A * B * C) : A * B := fst a.
Lemma learn_round_ok F b ps fuel r : finv c F b ps -> ps <> [] ->
  rfmap fst (learn_round c fuel r b ps) = round c fuel r b ps /\
  forall b' ps' ds, learn_round c fuel r b ps = Ok (b', ps', ds) -> trace_rel o k p (b_el b) ds (b_el b').
Proof.
  intros HI Hne. destruct (round_matrix_ok c r b ps _ (ck_o c CK) (cfg_p c CK) (ck_m c CK) (ck_sort c CK r) (fi_u _ _ _ _ HI) (fi_els _ _ _ _ HI) Hne) as (N & K). specialize (K fuel).
  pose proof (round_matrix_t_snd c fuel r b ps) as ES. unfold learn_round, round. rewrite <- ES in *. destruct (round_matrix_t c fuel r b ps) as [[[rest cols] [rrT trT]]| | |] eqn:EM; cbn [rfmap rbind]; try (split; [reflexivity|discriminate]).
  unfold rfmap in K. cbn [rbind forgetm okn fst snd] in K. destruct K as (sel & sht & leads & _ & -> & [M1 M2 M3 M4 M5 M6 M7 _ _]). unfold rfmap, forgetm. cbn [rbind fst snd].
  pose proof (round_matrix_t_good c fuel r b ps _ _ _ _ EM) as HT.
  assert (MH : mat_hyp (c_o c) (b_el b) sht leads (map snd rrT) (map snd trT)) by (constructor; assumption).
  destruct (cols_fit (c_k c) (c_p c) (length (hcm_of (c_o c) sht leads))) eqn:EF.
  2:{ unfold hcm_of in EF. unfold learn_rows, round_rows. rewrite EF. cbn [when rbind]. split; [reflexivity|discriminate]. }
  destruct (learn_rows_ok c (b_el b) sht leads rrT trT CK (fi_els _ _ _ _ HI) MH HT r EF) as (news & ds & -> & -> & _ & TD). cbn [rbind].
  destruct (update_basis _ _ rest _) as [[b1 ps1]| | |] eqn:EU; cbn [rbind]; try (split; [reflexivity|discriminate]). split; [reflexivity|]. intros b' ps' ds' E. injection E as <- <- <-. apply update_el in EU. cbn [b_el] in EU. rewrite EU.
  destruct TD as [[-> ->]|(d & rr' & tr' & -> & TD)]; [rewrite app_nil_r; constructor|]. econstructor; [apply (fi_els _ _ _ _ HI)|exact TD|constructor].
Qed.
Lemma learn_loop_ok F : forall fuel b ps r ds, finv c F b ps ->
  rfmap fst (learn_loop c fuel r b ps ds) = f4_loop c fuel r b ps /\
  forall b' ds', learn_loop c fuel r b ps ds = Ok (b', ds') -> exists ds1, ds' = ds ++ ds1 /\ trace_rel o k p (b_el b) ds1 (b_el b').
Proof.
  induction fuel as [|fuel IH]; intros b ps r ds HI; cbn [learn_loop f4_loop].
  - destruct (done b ps); (split; [reflexivity|]); [|discriminate]. intros b' ds' E. injection E as <- <-. exists []. split; [symmetry; apply app_nil_r|constructor].
  - destruct (done b ps) eqn:Ed; [split; [reflexivity|]; intros b' ds' E; injection E as <- <-; exists []; split; [symmetry; apply app_nil_r|constructor]|].
    assert (Hne : ps <> []) by (intros ->; unfold done in Ed; rewrite orb_true_r in Ed; discriminate).
    destruct (learn_round_ok F b ps (S fuel) r HI Hne) as [E1 T1]. destruct (round_ok c CK F r b ps HI Hne) as (N & K). specialize (K (S fuel)). rewrite <- E1 in *.
    destruct (learn_round c (S fuel) r b ps) as [[[b1 ps1] d]| | |] eqn:EL; cbn [rfmap rbind]; try (split; [reflexivity|discriminate]). unfold rfmap in K |- *. cbn [rbind fst okn snd] in *. destruct K as [HI1 _].
    destruct (IH b1 ps1 (S r) (ds ++ d) HI1) as [E2 T2]. split; [exact E2|]. intros b' ds' E. destruct (T2 b' ds' E) as (ds1 & -> & R1). exists (d ++ ds1). split; [symmetry; apply app_assoc|]. eapply trace_rel_app; [apply (T1 _ _ _ eq_refl)|exact R1].
Qed.

Theorem learn_f4_ok F fuel : Forall (sorted_poly (o_nv o) (o_lt o) p) F ->
  rfmap fst (learn_f4 c fuel F) = core_f4 c true fuel F /\
  forall out T, learn_f4 c fuel F = Ok (out, T) -> exists F' b ps, rmap (normalize_poly k p) F = Ok F' /\ Forall (mpoly (o_nv o) (o_lt o) p) F' /\ finv c F' b ps /\ done b ps = true /\ t_lmps T = final_lmps b /\
    trace_rel o k p (map (mk_elt (o_nev o)) F') (t_rds T) (b_el b) /\ reduce_final c fuel (b_el b) (final_lmps b) = Ok out.
Proof.
  intros HF. destruct (normalize_all c CK F HF) as (F' & EF & MF & SF). unfold learn_f4, core_f4. fold o p k. unfold p, k in EF |- *. rewrite EF. cbn [rbind]. fold basis0.
  pose proof (start_ok c F' MF) as ST. fold o in ST. destruct (update_basis o basis0 [] (map (mk_elt (o_nev o)) F')) as [[b0 ps0]| | |] eqn:EU; cbn [okl rbind fst snd] in *; try (split; [reflexivity|discriminate]).
  destruct (learn_loop_ok F' fuel b0 ps0 0 [] ST) as [E1 T1]. destruct (loop_ok c CK F' [] 0 b0 ps0 ST) as (N & K); [intros x []|]. specialize (K fuel). rewrite <- E1 in *.
  destruct (learn_loop c fuel 0 b0 ps0 []) as [[b ds]| | |] eqn:EL; cbn [rfmap rbind]; try (split; [reflexivity|discriminate]). unfold rfmap in K |- *. cbn [rbind fst okn] in *. destruct K as (ps & HI & Hd).
  destruct (reduce_final c fuel (b_el b) (final_lmps b)) as [out| | |] eqn:ER; cbn [rbind]; try (split; [reflexivity|discriminate]). split; [reflexivity|]. intros out' T E. injection E as <- <-. cbn [t_lmps t_rds].
  destruct (T1 b ds eq_refl) as (ds1 & -> & R1). exists F', b, ps. split; [reflexivity|]. split; [exact MF|]. split; [exact HI|]. split; [exact Hd|]. split; [reflexivity|]. split; [|exact ER]. apply update_el in EU. cbn [basis0 b_el app] in EU. rewrite <- EU. exact R1.
Qed.
End Run.
