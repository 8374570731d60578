(** Application of a trace. *)
From Coq Require Import ZArith NArith Arith List Bool Lia Permutation Sorted Znumtheory.
From Verif Require Import LinSpec MonoSpec MonoModel MonoSpecProofs MonoCmpProofs GbSpec GbProofs GbIdeal LaModel LaSpec LaProofs LaRowProofs LaSysProofs LaProps F4Model UpdProofs UpdProps F4Rows SymbProofs SelProofs MatProofs RoundProofs FinalProofs F4Props TraceModel TraceLaProofs TraceProofs TraceRun.
Import ListNotations.
Open Scope Z_scope.

(** * Reduced families with the same span *)
Section Family.
Variables (nv : nat) (lt : mono -> mono -> Prop) (p : Z).
Hypothesis MO : mono_order nv lt.
Hypothesis Hp : 1 < p.
(** a combination of monic polynomials with distinct leading monomials that vanishes at all of them is zero *)
Lemma vanish : forall n (R : list (list (Z * mono))) f, length R = n -> Forall (good nv lt) R -> NoDup (map lm R) -> lspan nv p (pfs R) f ->
  (forall r, In r R -> eqp p (f (lm r)) 0) -> peq nv p f pzero.
Proof.
  induction n as [|n IH]; intros R f Hn HG HN Hf Hz.
  - destruct R; [|cbn in Hn; lia]. induction Hf as [f (r & [] & _)| |a f g Hf IHf Hg IHg|f g Hf IHf E].
    + intros m _. reflexivity.
    + intros m Hm. rewrite (IHf ltac:(intros r []) m Hm), (IHg ltac:(intros r []) m Hm). unfold pzero. exists 0. ring.
    + intros m Hm. rewrite <- (E m Hm). apply IHf; [intros r []|exact Hm].
  - destruct (max_lead nv lt MO R HG) as (b & Hb & Mb); [intros ->; cbn in Hn; lia|]. pose proof HG as HG'. rewrite Forall_forall in HG'. pose proof (good_len nv lt b (HG' b Hb)) as Lb.
    destruct (in_split _ _ Hb) as (R1 & R2 & ->). assert (HNb : forall s, In s (R1 ++ R2) -> lm s <> lm b).
    { rewrite map_app in HN. cbn [map] in HN. intros s Hs E. apply (NoDup_remove_2 _ _ _ HN). rewrite <- map_app, <- E. apply in_map. assumption. }
    assert (Hin : forall s, In s (R1 ++ R2) -> In s (R1 ++ b :: R2)) by (intros s Hs; apply in_app_or in Hs; apply in_or_app; destruct Hs; [left|right; right]; assumption).
    assert (Hf' : lspan nv p (fun h => pfs (R1 ++ R2) h \/ h = cf b) f).
    { eapply lspan_mono; [|exact Hf]. intros h (r & Hr & ->). apply ls_in. apply in_app_or in Hr. destruct Hr as [Hr|[<-|Hr]]; [left; exists r; split; [apply in_or_app; left; assumption|reflexivity]|right; reflexivity|left; exists r; split; [apply in_or_app; right; assumption|reflexivity]]. }
    destruct (span_split _ _ _ _ _ Hf') as (c & Hc).
    assert (Z0 : forall h, lspan nv p (pfs (R1 ++ R2)) h -> eqp p (h (lm b)) 0).
    { intros h H. induction H as [h H| |a h g Hh IHh Hg IHg|h g Hh IHh E].
      - destruct H as (s & Hs & ->). rewrite (good_above nv lt MO); auto; [reflexivity|]. destruct (Mb s (Hin s Hs)) as [H|H]; [assumption|]. destruct (HNb s Hs H).
      - reflexivity.
      - rewrite IHh, IHg. exists 0. cbv beta. ring.
      - rewrite <- (E _ Lb). assumption. }
    assert (Ec : eqp p c 0).
    { specialize (Z0 _ Hc). cbn in Z0. rewrite (good_lc nv lt MO) in Z0 by auto. rewrite (Hz b Hb) in Z0. apply eqp_opp in Z0. replace (- (0 - c * 1)) with c in Z0 by lia. exact Z0. }
    assert (Hf2 : lspan nv p (pfs (R1 ++ R2)) f).
    { eapply ls_eq; [exact Hc|]. intros m _. cbv beta. rewrite Ec. exists 0. cbv beta. ring. }
    apply (IH (R1 ++ R2)); auto.
    + rewrite app_length in *. cbn in Hn. lia.
    + apply Forall_forall. intros s Hs. apply HG'. auto.
    + rewrite map_app in *. cbn [map] in HN. apply NoDup_remove_1 in HN. exact HN.
Qed.

Definition comb (f : pf) (l : list (list (Z * mono))) : pf := fun m => fold_right (fun g acc => f (lm g) * cf g m + acc) 0 l.
Lemma comb_span f l : lspan nv p (pfs l) (comb f l).
Proof.
  induction l as [|g l IH]; [apply ls_zero|]. eapply lspan_ext; [apply (ls_lin nv p _ (f (lm g)) (cf g) (comb f l))|intros m _; reflexivity].
  - apply ls_in. exists g. split; [left; reflexivity|reflexivity].
  - eapply lspan_mono; [|exact IH]. intros h (r & Hr & ->). apply ls_in. exists r. split; [right; exact Hr|reflexivity].
Qed.
Lemma comb_zero f l m : (forall g, In g l -> f (lm g) = 0 \/ cf g m = 0) -> comb f l m = 0.
Proof.
  induction l as [|g l IH]; intros H; [reflexivity|]. change (comb f (g :: l) m) with (f (lm g) * cf g m + comb f l m). rewrite IH by (intros x Hx; apply H; right; exact Hx). destruct (H g (or_introl eq_refl)) as [->| ->]; lia.
Qed.
Lemma comb_at f l g m : NoDup l -> In g l -> (forall h, In h l -> h <> g -> f (lm h) = 0 \/ cf h m = 0) -> comb f l m = f (lm g) * cf g m.
Proof.
  induction l as [|x l IH]; intros ND Hg H; [destruct Hg|]. inversion ND; subst. change (comb f (x :: l) m) with (f (lm x) * cf x m + comb f l m). destruct Hg as [->|Hg].
  - rewrite (comb_zero f l m); [lia|]. intros h Hh. apply H; [right; exact Hh|]. intros ->. contradiction.
  - rewrite IH by (auto; intros h Hh; apply H; right; exact Hh). destruct (H x (or_introl eq_refl)) as [->| ->]; [intros ->; contradiction|lia|lia].
Qed.
Lemma comb_nz f l m : comb f l m <> 0 -> exists g, In g l /\ f (lm g) <> 0 /\ cf g m <> 0.
Proof.
  induction l as [|g l IH]; intros H; [exfalso; apply H; reflexivity|]. destruct (Z.eq_dec (f (lm g)) 0) as [E|E]; [|destruct (Z.eq_dec (cf g m) 0) as [E'|E']; [|exists g; split; [left; reflexivity|auto]]].
  - destruct IH as (h & Hh & K); [unfold comb in *; cbn [fold_right] in H; rewrite E in H; lia|]. exists h. split; [right; exact Hh|exact K].
  - destruct IH as (h & Hh & K); [unfold comb in *; cbn [fold_right] in H; rewrite E' in H; lia|]. exists h. split; [right; exact Hh|exact K].
Qed.

Definition apart (R N : list (list (Z * mono))) : Prop := forall f t, In f N -> In t f -> ~ In (snd t) (map lmono R).
Definition mutual (N : list (list (Z * mono))) : Prop := forall f g, In f N -> In g N -> f <> g -> forall t, In t f -> snd t <> lmono g.
Lemma family_unique R N N' : (forall f, In f R -> mpoly nv lt p f) -> (forall f, In f N -> mpoly nv lt p f) -> (forall f, In f N' -> mpoly nv lt p f) ->
  apart R N -> apart R N' -> mutual N -> mutual N' -> NoDup (map lmono R) -> NoDup (map lmono N) -> NoDup (map lmono N') ->
  (forall f, In f N -> lspan nv p (pfs (R ++ N')) (cf f)) -> (length N' <= length N)%nat -> forall f, In f N <-> In f N'.
Proof.
  intros MR MN MN' AN AN' UN UN' DR DN DN' HS HL.
  assert (Above : forall f m, mpoly nv lt p f -> length m = nv -> cf f m <> 0 -> m = lmono f \/ lt m (lmono f)).
  { intros f m Mf Lm' Hz. destruct (lt_tot nv lt MO m (lmono f) Lm') as [K|[K|K]]; auto; [apply (mpoly_lm nv lt p f Mf)|]. exfalso. apply Hz. apply (good_above nv lt MO); auto. apply (mpoly_good nv lt p); exact Mf. }
  assert (Lc : forall f, mpoly nv lt p f -> cf f (lmono f) = 1) by (intros f Mf; apply (good_lc nv lt MO f); apply (mpoly_good nv lt p); exact Mf).
  assert (DA : NoDup (map lm (R ++ N'))).
  { change lm with lmono. rewrite map_app. apply nodup_app_intro; auto. intros m H1 H2. apply in_map_iff in H2 as (g & <- & Hg). destruct (mpoly_lm_in nv lt p g (MN' g Hg)) as (t & Ht & Et). apply (AN' g t Hg Ht). rewrite Et. exact H1. }
  assert (GA : Forall (good nv lt) (R ++ N')) by (apply Forall_forall; intros g Hg; apply (mpoly_good nv lt p); apply in_app_or in Hg as [Hg|Hg]; auto).
  assert (NdN' : NoDup N') by (eapply NoDup_map_inv; exact DN').
  assert (Cf0 : forall f r, In f N \/ In f N' -> In r R -> cf f (lmono r) = 0).
  { intros f r Hf Hr. apply cf_not_in. intros t Ht E. destruct Hf as [Hf|Hf]; [apply (AN f t Hf Ht)|apply (AN' f t Hf Ht)]; rewrite E; apply in_map; exact Hr. }
  assert (CfM : forall l f g, mutual l -> In f l -> In g l -> f <> g -> cf f (lmono g) = 0) by (intros l f g U Hf Hg Hn; apply cf_not_in; intros t Ht; apply (U f g Hf Hg Hn t Ht)).
  assert (Rep : forall f, In f N -> peq nv p (cf f) (comb (cf f) N')).
  { intros f Hf. assert (V : peq nv p (fun m => cf f m - comb (cf f) N' m) pzero).
    { apply (vanish (length (R ++ N')) (R ++ N')); auto.
      - apply lspan_sub; [apply HS; exact Hf|]. eapply lspan_mono; [|apply comb_span]. intros h (r & Hr & ->). apply ls_in. exists r. split; [apply in_or_app; right; exact Hr|reflexivity].
      - intros r Hr. change (lm r) with (lmono r). cbv beta. apply in_app_or in Hr as [Hr|Hr].
        + rewrite (Cf0 f r (or_introl Hf) Hr). rewrite comb_zero; [exists 0; ring|]. intros g Hg. right. apply (Cf0 g r (or_intror Hg) Hr).
        + rewrite (comb_at (cf f) N' r (lmono r) NdN' Hr). { rewrite (Lc r (MN' r Hr)). change (lm r) with (lmono r). exists 0. ring. }
          intros h Hh Hn. right. apply (CfM N' h r UN' Hh Hr Hn). }
    intros m Hm. specialize (V m Hm). cbv beta in V. unfold pzero in V. unfold eqp in *. rewrite Z.sub_0_r in V. exact V. }
  assert (Lead : forall f, In f N -> In (lmono f) (map lmono N')).
  { intros f Hf. destruct (mpoly_lm nv lt p f (MN f Hf)) as [_ Lf]. pose proof (Rep f Hf (lmono f) Lf) as E. rewrite (Lc f (MN f Hf)) in E. destruct (comb_nz (cf f) N' (lmono f)) as (g & Hg & H1 & H2).
    { intros K. rewrite K in E. apply (P1 p Hp). exact E. }
    destruct (mpoly_lm nv lt p g (MN' g Hg)) as [_ Lg]. change (lm g) with (lmono g) in H1. destruct (Above f (lmono g) (MN f Hf) Lg H1) as [K|K]; [rewrite <- K; apply in_map; exact Hg|]. destruct (Above g (lmono f) (MN' g Hg) Lf H2) as [K'|K']; [rewrite K'; apply in_map; exact Hg|].
    exfalso. apply (lt_irr nv lt MO (lmono f)). apply (lt_tr nv lt MO _ (lmono g)); auto. }
  assert (Back : forall g, In g N' -> In (lmono g) (map lmono N)).
  { intros g Hg. apply (NoDup_length_incl (l' := map lmono N') DN); [rewrite !map_length; exact HL| |apply in_map; exact Hg]. intros m Hm. apply in_map_iff in Hm as (f & <- & Hf). apply Lead. exact Hf. }
  assert (Same : forall f g, In f N -> In g N' -> lmono f = lmono g -> f = g).
  { intros f g Hf Hg E. apply (sorted_poly_eq nv lt p MO Hp); [right; apply (MN f Hf)|right; apply (MN' g Hg)|]. intros m Hm. rewrite (Rep f Hf m Hm). rewrite (comb_at (cf f) N' g m NdN' Hg).
    - change (lm g) with (lmono g). rewrite <- E, (Lc f (MN f Hf)). exists 0. ring.
    - intros h Hh Hn. left. change (lm h) with (lmono h). pose proof (Back h Hh) as K. apply in_map_iff in K as (f' & E' & Hf'). rewrite <- E'. apply (CfM N f f' UN Hf Hf'). intros ->. apply Hn.
      assert (Eg : lmono h = lmono g) by congruence. clear - DN' Hh Hg Eg. induction N' as [|x l IH]; [destruct Hh|]. cbn [map] in DN'. inversion DN' as [|? ? D1 D2]; subst. destruct Hh as [->|Hh], Hg as [->|Hg]; auto.
      + exfalso. apply D1. rewrite Eg. apply in_map. exact Hg.
      + exfalso. apply D1. rewrite <- Eg. apply in_map. exact Hh. }
  intros f. split; intros Hf.
  - pose proof (Lead f Hf) as K. apply in_map_iff in K as (g & E & Hg). rewrite (Same f g Hf Hg); auto.
  - pose proof (Back f Hf) as K. apply in_map_iff in K as (g & E & Hg). rewrite <- (Same g f Hg Hf); auto.
Qed.
End Family.

(** * One round *)
Lemma tag_row_inv els t r : tag_row els t = Ok r -> exists g, nth_error els (fst t) = Some g /\ r = mulp (snd t) (e_pol g).
Proof.
  unfold tag_row. destruct (nth_error els (fst t)) as [g|]; [|discriminate]. cbn [of_opt rbind]. unfold mul_row, when. destruct (forallb _ _); [|discriminate]. cbn [rbind]. intros E. injection E as <-. exists g. auto.
Qed.
Lemma tag_row_okl els t : (fst t < length els)%nat -> okl (tag_row els t) (fun r => tag_row els t = Ok r).
Proof.
  intros H. unfold tag_row. destruct (nth_error els (fst t)) as [g|] eqn:E; [|apply nth_error_None in E; lia]. cbn [of_opt rbind]. unfold mul_row, when. destruct (forallb _ _); cbn [rbind okl]; auto.
Qed.
Lemma rmap_okl {A B} (f : A -> res B) l : (forall a, In a l -> okl (f a) (fun r => f a = Ok r)) -> okl (rmap f l) (fun r => rmap f l = Ok r).
Proof.
  induction l as [|a l IH]; intros H; cbn [rmap okl]; [reflexivity|]. pose proof (H a (or_introl eq_refl)) as K. destruct (f a); cbn [okl rbind] in *; auto. specialize (IH (fun x Hx => H x (or_intror Hx))). destruct (rmap f l); cbn [okl rbind] in *; auto.
Qed.
Lemma list_eqb_eq a : forall b, list_eqb a b = true <-> a = b.
Proof.
  induction a as [|x a IH]; intros [|y b]; cbn [list_eqb]; try (split; congruence). rewrite andb_true_iff, IH, mono_eqb_iff. split; [intros [-> ->]; reflexivity|intros E; injection E; auto].
Qed.
Lemma hcm_len o sht leads : NoDup sht -> (forall m, In m leads -> In m sht) -> length (hcm_of o sht leads) = length sht.
Proof.
  intros H1 H2. pose proof (hcm_nd o sht leads H1 H2) as ND. pose proof (hcm_in o sht leads H2) as HI. apply Nat.le_antisymm; apply NoDup_incl_length; auto; intros m Hm; apply HI; exact Hm.
Qed.

Section ApplyRound.
Variables (c : config) (els : list elt) (d : tdata) (rr tr : list (list (Z * mono))).
Hypothesis CK : cfg_ok c.
Let o := c_o c.
Let nv := o_nv o.
Let lt := o_lt o.
Let p := c_p c.
Let MO : mono_order nv lt := o_lt_order o.
Hypothesis HE : els_ok nv lt p els.
Hypothesis HR : rmap (tag_row els) (td_rri d) = Ok rr.
Hypothesis HT : rmap (tag_row els) (td_tri d) = Ok tr.
Hypothesis HL : forall t, In t (td_rri d ++ td_tri d) -> length (snd t) = nv.
Hypothesis ND : NoDup (map lmono rr).
Hypothesis HD : forall f, In f tr -> In (lmono f) (map lmono rr).

Lemma tag_mrow f : In f (rr ++ tr) -> mrow nv els f.
Proof.
  intros Hf. assert (K : exists t, In t (td_rri d ++ td_tri d) /\ tag_row els t = Ok f).
  { apply rmap_F2 in HR. apply rmap_F2 in HT. apply in_app_or in Hf as [Hf|Hf]; [destruct (F2_in_r _ _ _ _ HR Hf) as (t & Ht & E)|destruct (F2_in_r _ _ _ _ HT Hf) as (t & Ht & E)]; exists t; (split; [apply in_or_app; auto|exact E]). }
  destruct K as (t & Ht & E). apply tag_row_inv in E as (g & Eg & ->). exists g, (snd t). split; [eapply nth_error_In; exact Eg|]. split; [apply HL; exact Ht|reflexivity].
Qed.
Lemma tag_mat : mat_hyp o els (sht_rows [] (rr ++ tr)) (map lmono rr) rr tr.
Proof.
  assert (Mp : forall f, In f (rr ++ tr) -> mpoly nv lt p f) by (intros f Hf; apply (mrow_mpoly nv lt p MO els); [exact HE|apply tag_mrow; exact Hf]).
  assert (Sh : forall f t, In f (rr ++ tr) -> In t f -> In (snd t) (sht_rows [] (rr ++ tr))) by (intros f t Hf Ht; apply sht_rows_in; right; exists f, t; auto).
  constructor.
  - apply sht_rows_nd. constructor.
  - intros m Hm. apply sht_rows_in in Hm as [[]|(f & t & Hf & Ht & <-)]. apply (mpoly_terms nv lt p f t (Mp f Hf) Ht).
  - exact ND.
  - intros m Hm. apply in_map_iff in Hm as (f & <- & Hf). assert (Hf' : In f (rr ++ tr)) by (apply in_or_app; left; exact Hf). destruct (mpoly_lm_in nv lt p f (Mp f Hf')) as (t & Ht & <-). apply (Sh f t Hf' Ht).
  - reflexivity.
  - intros f Hf. assert (Hf' : In f (rr ++ tr)) by (apply in_or_app; left; exact Hf). split; [apply tag_mrow; exact Hf'|]. intros t Ht. apply (Sh f t Hf' Ht).
  - intros f Hf. assert (Hf' : In f (rr ++ tr)) by (apply in_or_app; right; exact Hf). split; [apply tag_mrow; exact Hf'|]. split; [intros t Ht; apply (Sh f t Hf' Ht)|apply HD; exact Hf].
Qed.
Record applied (news : list (list (Z * mono))) : Prop := {
  ap_mpoly : forall f, In f news -> mpoly nv lt p f;
  ap_span : forall f, In f news -> lspan nv p (pfs (rr ++ tr)) (cf f);
  ap_gen : forall f, In f (rr ++ tr) -> lspan nv p (pfs (rr ++ news)) (cf f);
  ap_nd : NoDup (map lmono news);
  ap_apart : apart rr news;
  ap_mutual : mutual news;
  ap_dec : ForallOrdPairs (fun f g => lt (lmono g) (lmono f)) news;
  ap_len : (length news <= length tr)%nat }.
Lemma apply_round_cases r : cols_fit (c_k c) p (length (sht_rows [] (rr ++ tr))) = true ->
  exists news, applied news /\ (apply_round c r els d = Ok (Some news) /\ map lmono news = td_nlms d \/
    apply_round c r els d = Ok None /\ ~ (length news = length tr /\ map lmono news = td_nlms d)).
Proof.
  intros HF. pose proof tag_mat as MH. set (sht := sht_rows [] (rr ++ tr)) in *. set (leads := map lmono rr) in *. rewrite <- (hcm_len o sht leads (mh_nd _ _ _ _ _ _ MH) (mh_sub _ _ _ _ _ _ MH)) in HF.
  destruct (ech c els sht leads rr tr CK HE MH HF r) as (s & l & news & _ & E2 & _ & LS & FN & E3 & _ & E5 & _ & E7 & E8 & E9 & E10 & E11). exists news.
  destruct E8 as [R1 R2 R3 R4 R5]. fold o nv lt p in R1, R4, R5, E10.
  assert (CL : (length (filter (fun x => is_piv (fst x)) (ts_rows s)) <= length tr)%nat /\ (existsb is_zero (map fst (ts_rows s)) = true -> (length (filter (fun x => is_piv (fst x)) (ts_rows s)) < length tr)%nat)).
  { rewrite <- LS. clear. generalize (ts_rows s). intros l0. induction l0 as [|x l0 [IH1 IH2]]; [split; [apply le_n|discriminate]|]. cbn [filter map existsb length]. destruct (fst x) eqn:Ex; cbn [is_piv is_zero orb length]; split; try intros K; try (specialize (IH2 K)); lia. }
  split.
  - constructor; auto.
    + intros f t Hf Ht. apply (R2 f t Hf Ht).
    + rewrite E9, E5. apply CL.
  - unfold apply_round. rewrite HR, HT. cbn [rbind]. fold o. fold sht leads. fold (hcm_of o sht leads). unfold p, o in HF |- *. rewrite HF. cbn [when rbind]. unfold echelon_apply. rewrite E2. cbn [forget sh_rows sh_pivs].
    destruct (existsb is_zero (map fst (ts_rows s))) eqn:EZ.
    + right. cbn [of_opt rbind]. split; [reflexivity|]. intros [K _]. pose proof (proj2 CL eq_refl) as K2. rewrite E9, E5 in K. rewrite K in K2. apply (Nat.lt_irrefl _ K2).
    + assert (FN' : forallb finished (map fst (ts_rows s)) = true) by (rewrite forallb_forall in *; intros x Hx; apply in_map_iff in Hx as (y & <- & Hy); apply FN; exact Hy). rewrite FN', E3. cbn [of_opt rbind].
      destruct (Nat.eqb_spec (length l) (length (td_nlms d))) as [En|En].
      * rewrite E7. cbn [rbind]. destruct (list_eqb (map lmono news) (td_nlms d)) eqn:El; [left; split; [reflexivity|apply list_eqb_eq; exact El]|]. right. split; [reflexivity|]. intros [_ K]. apply list_eqb_eq in K. congruence.
      * right. split; [reflexivity|]. intros [_ K]. apply (f_equal (@length _)) in K. rewrite map_length in K. apply En. rewrite <- K. symmetry. exact E9.
Qed.
Lemma apply_round_limit r : cols_fit (c_k c) p (length (sht_rows [] (rr ++ tr))) = false -> apply_round c r els d = Limit.
Proof.
  intros HF. pose proof tag_mat as MH. rewrite <- (hcm_len o _ _ (mh_nd _ _ _ _ _ _ MH) (mh_sub _ _ _ _ _ _ MH)) in HF. unfold apply_round. rewrite HR, HT. cbn [rbind]. fold o. fold (hcm_of o (sht_rows [] (rr ++ tr)) (map lmono rr)). unfold p, o in HF |- *. rewrite HF. reflexivity.
Qed.
End ApplyRound.

(** * Replaying a trace at the prime it was learned with *)
Lemma sorted_news nv lt p news news' : mono_order nv lt -> (forall f, In f news -> mpoly nv lt p f) -> ForallOrdPairs (fun f g => lt (lmono g) (lmono f)) news -> ForallOrdPairs (fun f g => lt (lmono g) (lmono f)) news' ->
  (forall f, In f news <-> In f news') -> news = news'.
Proof.
  intros MO M H1 H2 E. apply (sorted_unique (fun f g => lt (lmono g) (lmono f)) (fun f => length (lmono f) = nv)); auto.
  - intros a _ K. apply (lt_irr nv lt MO _ K).
  - intros a b d La Lb Ld K1 K2. apply (lt_tr nv lt MO _ (lmono b)); assumption.
  - intros a Ha. apply (mpoly_lm nv lt p). auto.
Qed.
Lemma dec_nodup nv lt p (news : list (list (Z * mono))) : mono_order nv lt -> (forall f, In f news -> mpoly nv lt p f) -> ForallOrdPairs (fun f g => lt (lmono g) (lmono f)) news -> NoDup (map lmono news).
Proof.
  intros MO M H. induction H as [|f l Hf H IH]; [constructor|]. cbn [map]. constructor; [|apply IH; intros g Hg; apply M; right; exact Hg]. intros K. apply in_map_iff in K as (g & E & Hg). rewrite Forall_forall in Hf. specialize (Hf g Hg). cbv beta in Hf. rewrite E in Hf. apply (lt_irr nv lt MO _ Hf).
Qed.
Lemma replay_round c r els d news rr tr : cfg_ok c -> els_ok (o_nv (c_o c)) (o_lt (c_o c)) (c_p c) els -> round_td (c_o c) (c_k c) (c_p c) els d news rr tr -> apply_round c r els d = Ok (Some news).
Proof.
  intros CK HE [A1 A2 A3 A4 A5 A6 A7 A8 A9 A10 A11 A12 A13]. set (o := c_o c) in *. set (nv := o_nv o) in *. set (lt := o_lt o) in *. set (p := c_p c) in *. pose proof (o_lt_order o) as MO. fold nv lt in MO.
  assert (HL : forall t, In t (td_rri d ++ td_tri d) -> length (snd t) = nv) by (intros t Ht; apply A3; exact Ht).
  destruct (apply_round_cases c els d rr tr CK HE A1 A2 HL A4 A5 r A13) as (news' & [B1 B2 B3 B4 B5 B6 B7 B8] & HX). fold o nv lt p in B1, B2, B3, B7.
  assert (Mrr : forall f, In f rr -> mpoly nv lt p f) by (intros f Hf; apply (mrow_mpoly nv lt p MO els f HE); apply (tag_mrow c els d rr tr A1 A2 HL); apply in_or_app; left; exact Hf).
  assert (E : news = news').
  { apply (sorted_news nv lt p); auto. apply (family_unique nv lt p MO (cfg_p c CK) rr); auto.
    - apply (dec_nodup nv lt p); auto.
    - intros f Hf. eapply lspan_mono; [|apply A9; exact Hf]. intros g (h & Hh & ->). apply B3. exact Hh.
    - lia. }
  subst news'. destruct HX as [[HX _]|[_ HX]]; [exact HX|]. exfalso. apply HX. split; [lia|congruence].
Qed.
Lemma replay_loop c : cfg_ok c -> forall els ds els', trace_rel (c_o c) (c_k c) (c_p c) els ds els' -> forall r, apply_loop c r els ds = Ok (Some els').
Proof.
  intros CK els ds els' H. induction H as [els|els d ds news rr tr els' HE HTD H IH]; intros r; cbn [apply_loop]; [reflexivity|]. rewrite (replay_round c r els d news rr tr CK HE HTD). cbn [rbind]. apply IH.
Qed.

(** * Application at another prime *)
Lemma tag_leads els1 els2 : map e_lm els1 = map e_lm els2 -> (forall e, In e els1 -> e_pol e <> []) -> (forall e, In e els2 -> e_pol e <> []) ->
  forall tags r1 r2, rmap (tag_row els1) tags = Ok r1 -> rmap (tag_row els2) tags = Ok r2 -> map lmono r1 = map lmono r2.
Proof.
  intros E N1 N2. induction tags as [|t tags IH]; intros r1 r2 H1 H2; cbn [rmap] in H1, H2; [injection H1 as <-; injection H2 as <-; reflexivity|].
  destruct (tag_row els1 t) as [a1| | |] eqn:T1; try discriminate. destruct (tag_row els2 t) as [a2| | |] eqn:T2; try discriminate. cbn [rbind] in H1, H2. destruct (rmap (tag_row els1) tags) as [l1| | |]; try discriminate. destruct (rmap (tag_row els2) tags) as [l2| | |]; try discriminate. cbn [rbind] in H1, H2. injection H1 as <-. injection H2 as <-.
  cbn [map]. f_equal; [|apply IH; reflexivity]. apply tag_row_inv in T1 as (g1 & G1 & ->). apply tag_row_inv in T2 as (g2 & G2 & ->). rewrite !lmono_mulp by (eauto using nth_error_In). f_equal. fold (e_lm g1). fold (e_lm g2).
  pose proof (map_nth_error e_lm _ _ G1) as K1. pose proof (map_nth_error e_lm _ _ G2) as K2. rewrite E in K1. congruence.
Qed.
Lemma mpoly_ne nv lt p f : mpoly nv lt p f -> f <> [].
Proof. intros (_ & l & r & ->). discriminate. Qed.

Section Apply.
Variable c : config.
Hypothesis CK : cfg_ok c.
Let o := c_o c.
Let nv := o_nv o.
Let lt := o_lt o.
Let p := c_p c.
Let MO : mono_order nv lt := o_lt_order o.

Lemma apply_round_ok k1 p1 els1 els d news1 rr1 tr1 r : round_td o k1 p1 els1 d news1 rr1 tr1 -> els_ok nv lt p1 els1 -> els_ok nv lt p els -> map e_lm els = map e_lm els1 ->
  okl (apply_round c r els d) (fun x => match x with None => True | Some news =>
    (forall f, In f news -> mpoly nv lt p f) /\ map lmono news = map lmono news1 /\ forall f, In f news -> ideal nv p (pfs (map e_pol els)) (cf f) end).
Proof.
  intros [A1 A2 A3 A4 A5 A6 A7 A8 A9 A10 A11 A12 A13] HE1 HE EL. fold nv in A3. fold nv lt in A8, A9, A12. assert (LL : length els = length els1) by (rewrite <- (map_length e_lm els), EL; apply map_length).
  assert (TR : forall tags, (forall t, In t tags -> In t (td_rri d ++ td_tri d)) -> okl (rmap (tag_row els) tags) (fun r0 => rmap (tag_row els) tags = Ok r0)) by (intros tags H; apply rmap_okl; intros t Ht; apply tag_row_okl; rewrite LL; apply A3; apply H; exact Ht).
  pose proof (TR (td_rri d) (fun t Ht => in_or_app _ _ t (or_introl Ht))) as K1. pose proof (TR (td_tri d) (fun t Ht => in_or_app _ _ t (or_intror Ht))) as K2.
  destruct (rmap (tag_row els) (td_rri d)) as [rr| | |] eqn:E1; cbn [okl] in K1; try contradiction; [|unfold apply_round; rewrite E1; exact I]. destruct (rmap (tag_row els) (td_tri d)) as [tr| | |] eqn:E2; cbn [okl] in K2; try contradiction; [|unfold apply_round; rewrite E1, E2; exact I]. clear K1 K2 TR.
  assert (N1 : forall e, In e els1 -> e_pol e <> []) by (intros e He; apply (mpoly_ne nv lt p1); apply HE1; exact He). assert (N2 : forall e, In e els -> e_pol e <> []) by (intros e He; apply (mpoly_ne nv lt p); apply HE; exact He).
  pose proof (tag_leads els els1 EL N2 N1 _ _ _ E1 A1) as L1. pose proof (tag_leads els els1 EL N2 N1 _ _ _ E2 A2) as L2.
  assert (HL : forall t, In t (td_rri d ++ td_tri d) -> length (snd t) = nv) by (intros t Ht; apply A3; exact Ht).
  assert (ND : NoDup (map lmono rr)) by (rewrite L1; exact A4).
  assert (HD : forall f, In f tr -> In (lmono f) (map lmono rr)).
  { intros f Hf. rewrite L1. apply (in_map lmono) in Hf. rewrite L2 in Hf. apply in_map_iff in Hf as (g & <- & Hg). apply A5. exact Hg. }
  destruct (cols_fit (c_k c) p (length (sht_rows [] (rr ++ tr)))) eqn:EF; [|rewrite (apply_round_limit c els d rr tr HE E1 E2 HL ND HD r EF); exact I].
  destruct (apply_round_cases c els d rr tr CK HE E1 E2 HL ND HD r EF) as (news & [B1 B2 B3 B4 B5 B6 B7 B8] & [[-> B9]|[-> _]]); cbn [okl]; [|exact I]. split; [exact B1|]. split; [congruence|].
  intros f Hf. eapply lspan_mono; [|apply (B2 f Hf)]. intros h (rw & Hrw & ->). destruct (tag_mrow c els d rr tr E1 E2 HL rw Hrw) as (e & u & He & Lu & ->).
  eapply lspan_ext; [|intros m Hm; apply (row_cf c els e u HE He Lu m Hm)]. apply ideal_mul; [exact Lu|]. apply ideal_gen. exists (e_pol e). split; [apply in_map; exact He|reflexivity].
Qed.
Lemma els_ok_app q els news : els_ok nv lt q els -> (forall f, In f news -> mpoly nv lt q f) -> els_ok nv lt q (els ++ map (mk_elt (o_nev o)) news).
Proof. intros H1 H2 e He. apply in_app_or in He as [He|He]; [apply H1; exact He|]. apply in_map_iff in He as (f & <- & Hf). apply H2. exact Hf. Qed.
Lemma mk_lm n (l : list (list (Z * mono))) : map e_lm (map (mk_elt n) l) = map lmono l.
Proof. rewrite map_map. apply map_ext. reflexivity. Qed.
Lemma mk_pol n (l : list (list (Z * mono))) : map e_pol (map (mk_elt n) l) = l.
Proof. rewrite map_map. cbn [mk_elt e_pol]. apply map_id. Qed.
Lemma apply_loop_ok k1 p1 els1 ds els1' : trace_rel o k1 p1 els1 ds els1' -> forall els r, els_ok nv lt p els -> map e_lm els = map e_lm els1 ->
  okl (apply_loop c r els ds) (fun x => match x with None => True | Some els' =>
    els_ok nv lt p els' /\ map e_lm els' = map e_lm els1' /\ forall e, In e els' -> ideal nv p (pfs (map e_pol els)) (cf (e_pol e)) end).
Proof.
  intros H. induction H as [els1|els1 d ds news rr tr els1' HE1 HTD H IH]; intros els r HE EL; cbn [apply_loop].
  - cbn [okl]. split; [exact HE|]. split; [exact EL|]. intros e He. apply ideal_gen. exists (e_pol e). split; [apply in_map; exact He|reflexivity].
  - eapply okl_bind; [eapply apply_round_ok; eauto|]. intros [news2|] HX; [|exact I]. destruct HX as (X1 & X2 & X3).
    assert (HE' : els_ok nv lt p (els ++ map (mk_elt (o_nev o)) news2)) by (apply els_ok_app; assumption).
    specialize (IH (els ++ map (mk_elt (o_nev o)) news2) (S r) HE'). fold o. destruct (apply_loop c (S r) (els ++ map (mk_elt (o_nev o)) news2) ds) as [[els'|]| | |]; cbn [okl] in *; auto; try (apply IH; rewrite !map_app, !mk_lm; congruence).
    destruct IH as (Y1 & Y2 & Y3); [rewrite !map_app, !mk_lm; congruence|]. split; [exact Y1|]. split; [exact Y2|]. intros e He. specialize (Y3 e He). rewrite map_app, mk_pol in Y3. revert Y3. apply ideal_incl.
    intros h (f & Hf & ->). apply in_app_or in Hf as [Hf|Hf]; [apply ideal_gen; exists f; auto|apply X3; exact Hf].
Qed.
End Apply.
