(** The elements of a Groebner basis for a block order without the variables of the first block are a Groebner basis of the elimination ideal. *)
From Coq Require Import ZArith NArith Arith List Bool Lia Sorted.
From Verif Require Import LinSpec MonoSpec MonoSpecProofs GbSpec GbProofs GbIdeal ElimSpec.
Import ListNotations.
Open Scope Z_scope.

Section Elim.
Variables (k n : nat) (p : Z).
Let nv := (k + n)%nat.
Notation poly := (list (Z * mono)) (only parsing).
Hypothesis P1 : ~ eqp p 1 0.

Lemma firstn_ext (u : mono) : firstn k (mone k ++ u) = mone k.
Proof. rewrite firstn_app, mone_length, Nat.sub_diag, firstn_O, app_nil_r. apply firstn_all2. rewrite mone_length. lia. Qed.
Lemma skipn_ext (u : mono) : skipn k (mone k ++ u) = u.
Proof. rewrite skipn_app, mone_length, Nat.sub_diag, skipn_O. rewrite skipn_all2 by (rewrite mone_length; lia). reflexivity. Qed.
Lemma free_split m : free k m -> m = mone k ++ skipn k m.
Proof. intros H. rewrite <- H. symmetry. apply firstn_skipn. Qed.
Lemma len_ext (u : mono) : length u = n -> length (mone k ++ u) = nv.
Proof. intros H. rewrite app_length, mone_length. unfold nv. lia. Qed.
Lemma len_skip (m : mono) : length m = nv -> length (skipn k m) = n.
Proof. intros H. rewrite skipn_length. unfold nv in H. lia. Qed.
Lemma ext_at f u : ext k f (mone k ++ u) = f u.
Proof. unfold ext. rewrite firstn_ext, skipn_ext. destruct (mono_dec (mone k) (mone k)); congruence. Qed.
Lemma ext_free f m : free k m -> ext k f m = f (skipn k m).
Proof. intros H. unfold ext. destruct (mono_dec (firstn k m) (mone k)); [reflexivity|contradiction]. Qed.
Lemma ext_out f m : ~ free k m -> ext k f m = 0.
Proof. intros H. unfold ext. destruct (mono_dec (firstn k m) (mone k)); [contradiction|reflexivity]. Qed.
Lemma free_dec m : {free k m} + {~ free k m}.
Proof. unfold free. apply mono_dec. Qed.

Lemma mdvd_ext u v : mdvd (mone k ++ u) (mone k ++ v) <-> mdvd u v.
Proof.
  split; intros H i.
  - specialize (H (k + i)%nat). unfold ex in *. rewrite !app_nth2 in H by (rewrite mone_length; lia). rewrite mone_length in H. replace (k + i - k)%nat with i in H by lia. exact H.
  - unfold ex. destruct (Nat.lt_ge_cases i k) as [C|C]; [rewrite !app_nth1 by (rewrite mone_length; exact C); lia|]. rewrite !app_nth2 by (rewrite mone_length; lia). apply H.
Qed.
Lemma mdvd_free l m : length l = nv -> mdvd l m -> free k m -> free k l.
Proof.
  intros L D F. unfold free. apply mono_ext; [rewrite firstn_length, mone_length; unfold nv in L; lia|]. intros i. rewrite ex_mone. unfold ex. destruct (Nat.lt_ge_cases i k) as [C|C]; [|apply nth_overflow; rewrite firstn_length; lia].
  specialize (D i). rewrite (free_split m F) in D. unfold ex in D. rewrite (app_nth1 (mone k)) in D by (rewrite mone_length; exact C). change (nth i (mone k) 0%N) with (ex (mone k) i) in D. rewrite ex_mone in D.
  rewrite <- (firstn_skipn k l) in D. rewrite app_nth1 in D by (rewrite firstn_length; unfold nv in L; lia). lia.
Qed.
Lemma mquo_ext u v : mquo (mone k ++ u) (mone k ++ v) = mone k ++ mquo u v.
Proof. unfold mone. induction k as [|j IH]; cbn [repeat app]; [reflexivity|]. unfold mquo in *. cbn [map2]. rewrite IH. reflexivity. Qed.
Lemma mmul_ext u v : mmul (mone k ++ u) (mone k ++ v) = mone k ++ mmul u v.
Proof. unfold mone. induction k as [|j IH]; cbn [repeat app]; [reflexivity|]. unfold mmul in *. cbn [map2]. rewrite IH. reflexivity. Qed.

Lemma ext_pmul u f m : length u = n -> length m = nv -> ext k (pmul u f) m = pmul (mone k ++ u) (ext k f) m.
Proof.
  intros Lu Lm. destruct (free_dec m) as [F|F].
  - rewrite (free_split m F). set (v := skipn k m). assert (Lv : length v = n) by (apply len_skip; exact Lm). rewrite ext_at. unfold pmul. rewrite mquo_ext, ext_at.
    destruct (mdvdb u v) eqn:E1; destruct (mdvdb (mone k ++ u) (mone k ++ v)) eqn:E2; try reflexivity; exfalso.
    + apply mdvdb_iff in E1; [|congruence]. apply (proj2 (mdvd_ext u v)) in E1. apply mdvdb_iff in E1; [|rewrite !len_ext; auto]. rewrite E1 in E2. discriminate.
    + apply mdvdb_iff in E2; [|rewrite !len_ext; auto]. apply (proj1 (mdvd_ext u v)) in E2. rewrite (proj2 (mdvdb_iff u v ltac:(congruence)) E2) in E1. discriminate.
  - rewrite ext_out by exact F. symmetry. destruct (mdvd_dec (mone k ++ u) m) as [D|D]; [rewrite len_ext; auto| |apply (pmul_out nv); auto; apply len_ext; exact Lu].
    unfold pmul. destruct (mdvdb (mone k ++ u) m); [|reflexivity]. apply ext_out. intros K. apply F. unfold free in *. rewrite <- K. unfold mquo. rewrite map2_firstn. rewrite firstn_ext.
    apply mono_ext; [rewrite map2_length; [reflexivity|rewrite firstn_length, mone_length; unfold nv in Lm; lia]|]. intros i. rewrite ex_map2; [rewrite ex_mone; lia|rewrite firstn_length, mone_length; unfold nv in Lm; lia|reflexivity].
Qed.
Lemma ext_peq f g : peq n p f g -> peq nv p (ext k f) (ext k g).
Proof. intros H m Lm. destruct (free_dec m) as [F|F]; [rewrite !ext_free by exact F; apply H; apply len_skip; exact Lm|rewrite !ext_out by exact F; reflexivity]. Qed.
Lemma ext_peq_inv f g : peq nv p (ext k f) (ext k g) -> peq n p f g.
Proof. intros H m Lm. specialize (H (mone k ++ m) (len_ext m Lm)). rewrite !ext_at in H. exact H. Qed.
Lemma ext_lin a f g m : ext k (fun x => a * f x + g x) m = a * ext k f m + ext k g m.
Proof. destruct (free_dec m) as [F|F]; [rewrite !ext_free by exact F; reflexivity|rewrite !ext_out by exact F; ring]. Qed.
Lemma ext_zero m : ext k pzero m = 0.
Proof. unfold ext, pzero. destruct (mono_dec _ _); reflexivity. Qed.
Lemma blk_ext u v : blk_lt k (mone k ++ u) (mone k ++ v) <-> drl_lt u v.
Proof. unfold blk_lt. rewrite !firstn_ext, !skipn_ext. split; [intros [H|[_ H]]; [destruct (drl_irrefl _ H)|exact H]|intros H; right; split; [reflexivity|exact H]]. Qed.
Lemma blk_skip a b : free k a -> free k b -> blk_lt k a b -> drl_lt (skipn k a) (skipn k b).
Proof. unfold free, blk_lt. intros -> ->. intros [H|[_ H]]; [destruct (drl_irrefl _ H)|exact H]. Qed.
Lemma mdvd_skip a b : free k a -> free k b -> mdvd a b -> mdvd (skipn k a) (skipn k b).
Proof. intros A B. rewrite (free_split a A) at 1. rewrite (free_split b B) at 1. apply mdvd_ext. Qed.
Lemma blk_free a b : length a = nv -> free k b -> blk_lt k a b -> free k a.
Proof.
  intros La F H. assert (E : mdeg (firstn k a) = 0%N) by (apply (blk_elim k a b); [rewrite F; apply mdeg_mone|exact H]). unfold free. apply mono_ext; [rewrite firstn_length, mone_length; unfold nv in La; lia|]. intros i. rewrite ex_mone. apply mdeg_zero. exact E.
Qed.
Lemma blk_nonfree a b : length b = nv -> free k a -> ~ free k b -> blk_lt k a b.
Proof. intros Lb F N. unfold blk_lt. left. rewrite F. apply (drl_one k); [rewrite firstn_length; unfold nv in Lb; lia|exact N]. Qed.

(** A list of terms without the first variables is what remains when they are left out. *)
Definition terms_free (g : poly) : Prop := forall t : Z * mono, In t g -> length (snd t) = nv /\ free k (snd t).
Lemma cf_dropv g m : terms_free g -> length m = nv -> ext k (cf (dropv k g)) m = cf g m.
Proof.
  intros H Lm. destruct (free_dec m) as [F|F].
  - rewrite ext_free by exact F. induction g as [|t g IH]; [reflexivity|]. assert (Ht : length (snd t) = nv /\ free k (snd t)) by (apply H; left; reflexivity). destruct Ht as [Lt Ft]. cbn [dropv map cf fst snd]. change (map _ g) with (dropv k g). rewrite IH by (intros s Hs; apply H; right; exact Hs).
    match goal with |- (if ?b then _ else _) = (if ?b' then _ else _) => destruct b as [E|E]; destruct b' as [E'|E'] end; try reflexivity; exfalso.
    + apply E'. transitivity (mone k ++ skipn k (snd t)); [apply free_split; exact Ft|]. transitivity (mone k ++ skipn k m); [f_equal; exact E|symmetry; apply free_split; exact F].
    + apply E. f_equal. exact E'.
  - rewrite ext_out by exact F. symmetry. apply cf_not_in. intros t Ht E. apply F. rewrite <- E. apply H. exact Ht.
Qed.
Lemma good_free g : good nv (blk_lt k) g -> free k (lm g) -> terms_free g.
Proof. intros (l & r & -> & Ll & Hr) F t [<-|Ht]; cbn [snd lm] in *; [auto|]. destruct (Hr t Ht) as [Lt B]. split; [exact Lt|]. apply (blk_free _ l); assumption. Qed.
Lemma good_dropv g : good nv (blk_lt k) g -> free k (lm g) -> good n drl_lt (dropv k g) /\ lm (dropv k g) = skipn k (lm g).
Proof.
  intros G F. pose proof (good_free g G F) as TF. destruct G as (l & r & -> & Ll & Hr). cbn [lm snd] in F. split; [|reflexivity]. exists (skipn k l), (dropv k r). split; [reflexivity|]. split; [apply len_skip; exact Ll|]. intros t Ht. apply in_map_iff in Ht as (s & <- & Hs). cbn [snd]. destruct (Hr s Hs) as [Ls B]. split; [apply len_skip; exact Ls|].
  assert (Fs : free k (snd s)) by (apply (TF s); right; exact Hs). apply blk_skip; assumption.
Qed.
Lemma lead_ext f m : is_lead n drl_lt p f m -> is_lead nv (blk_lt k) p (ext k f) (mone k ++ m).
Proof.
  intros (Lm & Nz & Ab). split; [apply len_ext; exact Lm|]. split; [rewrite ext_at; exact Nz|]. intros m' Lm' B. destruct (free_dec m') as [F|F]; [|rewrite ext_out by exact F; reflexivity].
  rewrite ext_free by exact F. apply Ab; [apply len_skip; exact Lm'|]. rewrite (free_split m' F) in B. apply blk_ext in B. exact B.
Qed.
Lemma lead_ext_inv f m : is_lead nv (blk_lt k) p (ext k f) m -> free k m /\ is_lead n drl_lt p f (skipn k m).
Proof.
  intros (Lm & Nz & Ab). destruct (free_dec m) as [F|F]; [|rewrite ext_out in Nz by exact F; destruct Nz; reflexivity]. split; [exact F|]. split; [apply len_skip; exact Lm|]. split; [rewrite ext_free in Nz by exact F; exact Nz|].
  intros m' Lm' B. specialize (Ab (mone k ++ m') (len_ext _ Lm')). rewrite ext_at in Ab. apply Ab. rewrite (free_split m F). apply blk_ext. exact B.
Qed.

(** What is generated by polynomials of the elimination ideal is in it. *)
Lemma ext_ideal (E : list poly) (G : pf -> Prop) : (forall g, In g E -> terms_free g /\ ideal nv p G (cf g)) ->
  forall f, ideal n p (pfs (map (dropv k) E)) f -> elimination nv k p G f.
Proof.
  intros HE f Hf. unfold elimination. unfold ideal at 1 in Hf. induction Hf as [f (u & g & Lu & (g0 & Hg & ->) & ->)| |a f g Hf IHf Hg IHg|f g Hf IHf Efg].
  - apply in_map_iff in Hg as (g & <- & Hg). destruct (HE g Hg) as [TF Ig]. unfold ideal. eapply lspan_ext; [apply (ideal_mul nv p G (mone k ++ u) (cf g)); [apply len_ext; exact Lu|exact Ig]|].
    intros m Lm. rewrite ext_pmul by assumption. unfold pmul. destruct (mdvdb (mone k ++ u) m); [|reflexivity]. apply cf_dropv; [exact TF|]. rewrite mquo_length; [exact Lm|rewrite len_ext; auto].
  - apply lspan_zero. intros m _. rewrite ext_zero. reflexivity.
  - unfold ideal in *. eapply lspan_ext; [apply (ls_lin nv p _ a _ _ IHf IHg)|]. intros m _. apply ext_lin.
  - unfold ideal in *. eapply ls_eq; [exact IHf|]. apply ext_peq. exact Efg.
Qed.

Theorem elim_groebner (G E : list poly) : Forall (good nv (blk_lt k)) G -> groebner nv (blk_lt k) p (pfs G) ->
  (forall g, In g E <-> In g G /\ free k (lm g)) ->
  (forall f, ideal n p (pfs (map (dropv k) E)) f <-> elimination nv k p (pfs G) f) /\ groebner n drl_lt p (pfs (map (dropv k) E)).
Proof.
  intros HG GG HE. pose proof (mono_order_blk k nv) as MO. rewrite Forall_forall in HG.
  assert (TF : forall g, In g E -> terms_free g /\ ideal nv p (pfs G) (cf g)).
  { intros g Hg. apply HE in Hg as [Hg F]. split; [apply good_free; auto|]. apply ideal_gen. exists g. auto. }
  assert (DV : forall f m, elimination nv k p (pfs G) f -> is_lead nv (blk_lt k) p (ext k f) m -> free k m /\ exists g, In g E /\ mdvd (lm (dropv k g)) (skipn k m)).
  { intros f m Hf Hl. destruct (lead_ext_inv f m Hl) as [F _]. split; [exact F|]. destruct (GG _ m Hf Hl) as (h & l & (g & Hg & ->) & Lg & Dg).
    rewrite (lead_unique nv (blk_lt k) p MO _ _ _ Lg (good_lead nv (blk_lt k) p MO P1 g (HG g Hg))) in Dg. pose proof (good_len nv _ g (HG g Hg)) as Ln. assert (Fg : free k (lm g)) by (apply (mdvd_free _ m); assumption).
    exists g. split; [apply HE; auto|]. destruct (good_dropv g (HG g Hg) Fg) as [_ ->]. apply mdvd_skip; assumption. }
  assert (Key : forall m, length m = nv -> forall f, elimination nv k p (pfs G) f -> is_lead nv (blk_lt k) p (ext k f) m -> ideal n p (pfs (map (dropv k) E)) f).
  { intros m Lm. induction (mo_wf nv _ MO m Lm) as [m _ IH]. intros f Hf Hl. destruct (DV f m Hf Hl) as (F & g & Hg & D). pose proof Hl as (_ & _ & Ab). destruct (lead_ext_inv f m Hl) as (_ & Hl').
    pose proof (proj1 (HE g) Hg) as [HgG Fg]. destruct (good_dropv g (HG g HgG) Fg) as [Gd Ed]. pose proof (good_len n _ _ Gd) as Ld. assert (Ls : length (skipn k m) = n) by (apply len_skip; exact Lm).
    set (u := mquo (skipn k m) (lm (dropv k g))). assert (Lu : length u = n) by (unfold u; rewrite mquo_length; congruence).
    assert (Em : mmul u (lm (dropv k g)) = skipn k m) by (rewrite mmul_comm by congruence; apply (mul_quo n); assumption).
    assert (Ig : ideal n p (pfs (map (dropv k) E)) (pmul u (cf (dropv k g)))) by (apply ideal_mul; [exact Lu|]; apply ideal_gen; exists (dropv k g); split; [apply in_map; exact Hg|reflexivity]).
    set (f' := fun x => f x - f (skipn k m) * pmul u (cf (dropv k g)) x).
    assert (Hf' : elimination nv k p (pfs G) f').
    { unfold elimination. pose proof (ext_ideal E (pfs G) TF _ Ig) as Ie. unfold elimination in Ie. unfold ideal in *. eapply lspan_ext; [apply lspan_sub; [exact Hf|apply lspan_scale; exact Ie]|]. intros x _. cbv beta. instantiate (1 := f (skipn k m)). unfold ext, f'. destruct (mono_dec _ _); [reflexivity|ring]. }
    assert (If' : ideal n p (pfs (map (dropv k) E)) f').
    { destruct (ideal_lead nv (blk_lt k) p MO G (ext k f') (proj2 (Forall_forall _ _) HG) Hf') as [Z0|(m' & Hm')].
      - apply lspan_zero. apply ext_peq_inv. eapply peq_trans; [exact Z0|]. intros x _. rewrite ext_zero. reflexivity.
      - pose proof Hm' as (Lm2 & Nz & _). apply (IH m'); auto. split; [exact Lm2|]. split; [exact Lm|]. pose proof (lead_ext_inv f' m' Hm') as [F' _].
        destruct (lt_tot nv _ MO m' m Lm2 Lm) as [C|[C|C]]; [exact C| |]; exfalso; apply Nz; rewrite ext_free by exact F'; unfold f'.
        + subst m'. rewrite <- Em at 3. rewrite (mul_lc n drl_lt (mono_order_drl n) (dropv k g) u Gd Lu). replace (f (skipn k m) - f (skipn k m) * 1) with 0 by ring. reflexivity.
        + apply blk_skip in C; [|assumption|assumption]. assert (L' : length (skipn k m') = n) by (apply len_skip; exact Lm2).
          rewrite (mul_above n drl_lt (mono_order_drl n) (dropv k g) u _ Gd Lu L') by (rewrite Em; exact C). destruct Hl' as (_ & _ & Ab'). rewrite (Ab' _ L' C). replace (0 - f (skipn k m) * 0) with 0 by ring. reflexivity. }
    unfold ideal in *. eapply lspan_ext; [apply lspan_add; [exact If'|apply lspan_scale; exact Ig]|]. intros x _. unfold f'. cbv beta. instantiate (1 := f (skipn k m)). ring. }
  split.
  - intros f. split; [apply ext_ideal; exact TF|]. intros Hf. destruct (ideal_lead nv (blk_lt k) p MO G (ext k f) (proj2 (Forall_forall _ _) HG) Hf) as [Z0|(m & Hm)]; [|apply (Key m (proj1 Hm) f Hf Hm)].
    apply lspan_zero. apply ext_peq_inv. eapply peq_trans; [exact Z0|]. intros x _. rewrite ext_zero. reflexivity.
  - intros f m Hf Hl. apply (ext_ideal E (pfs G) TF) in Hf. apply lead_ext in Hl. destruct (DV f _ Hf Hl) as (F & g & Hg & D). rewrite skipn_ext in D. pose proof (proj1 (HE g) Hg) as [HgG Fg]. destruct (good_dropv g (HG g HgG) Fg) as [Gd _].
    exists (cf (dropv k g)), (lm (dropv k g)). split; [exists (dropv k g); split; [apply in_map; exact Hg|reflexivity]|]. split; [apply good_lead; [apply mono_order_drl|exact P1|exact Gd]|exact D].
Qed.
End Elim.
