(** The whole lifting loop of QparModel. *)
From Coq Require Import ZArith Znumtheory Arith List Bool Lia.
From Verif Require Import ModInvModel CrtModel LiftModel LiftProps FglmModel GliftProofs QparSpec QparModel QparProofs.
Import ListNotations.
Open Scope Z_scope.

Fixpoint good_threads (ts : list thread) : list image := match ts with [] => [] | t :: r => match t_im t with None => good_threads r | Some im => im :: good_threads r end end.
Definition goods (bs : list (bool * list thread)) : list image := flat_map (fun b => good_threads (snd b)) bs.

Lemma NoDup_snoc {A} (l : list A) p : ~ In p l -> NoDup l -> NoDup (l ++ [p]).
Proof.
  induction l as [|a l IH]; intros M1 M2; cbn; [constructor; [intros []|constructor]|]. apply NoDup_cons_iff in M2 as [M3 M4]. constructor; [intros Hi; apply in_app_or in Hi as [Hi|[<-|[]]]; [contradiction|apply M1; left; reflexivity]|apply IH; [intros Hi; apply M1; right; exact Hi|assumption]].
Qed.
Section run.
Variables (d nc : nat) (All : list image).
Hypothesis Hd : (0 < d)%nat.
Notation Inv := (Inv d nc All).
Notation CS := (CS d All).
Notation ok_im := (ok_im d nc).
(** the check at one more prime was passed *)
Definition Passed (s : state) (q : image) : Prop :=
  ~ (im_p q | co (s_elim s) d) /\ elim_agrees d (s_elim s) q /\
  forall k c f, nth_error (s_coords s) k = Some c -> nth_error (s_cfs s) k = Some f -> (im_p q | f) \/ coord_agrees d (s_elim s) f c k (im_len k q) q.
Lemma CS_weak U el k cs cfs lc lc' : Forall2 (fun l' l => l' = true -> l = true) lc' lc -> CS U el k cs cfs lc -> CS U el k cs cfs lc'.
Proof.
  intros F (A & B & C). split; [exact A|]. split; [rewrite <- B; clear -F; induction F; cbn; lia|]. intros i c f l H1 H2 H3. assert (X : exists l0, nth_error lc i = Some l0 /\ (l = true -> l0 = true)) by (clear -F H3; revert i H3; induction F; intros [|i] H3; cbn in *; try discriminate; [injection H3 as <-; eexists; split; [reflexivity|assumption]|apply IHF; exact H3]).
  destruct X as (l0 & X1 & X2). specialize (C i c f l0 H1 H2 X1). destruct l0; [destruct l; [exact C|apply (CQ_false _ _ _ _ _ _ _ _ _ _ C)]|]. destruct l; [specialize (X2 eq_refl); discriminate|exact C].
Qed.
Lemma flags_refl lc : Forall2 (fun l' l : bool => l' = true -> l = true) lc lc.
Proof. induction lc; constructor; auto. Qed.
Lemma flags_false lc : Forall2 (fun l' l : bool => l' = true -> l = true) (map (fun _ => false) lc) lc.
Proof. induction lc; constructor; [discriminate|assumption]. Qed.
Lemma check_coords_ok undef el q : prime (im_p q) -> Z.of_nat d < im_p q -> ~ (im_p q | co el d) -> forall cs k0 cfs lc nm r, nm = skipn k0 (im_coords q) ->
  check_coords undef (co el d) d (im_p q) cs cfs lc nm = Some r -> (length lc = length cs) -> Forall2 (fun l' l => l' = true -> l = true) (fst r) lc /\
  (snd r = false -> fst r = lc /\ forall i c f, nth_error cs i = Some c -> nth_error cfs i = Some f -> (im_p q | f) \/ coord_agrees d el f c (k0 + i) (im_len (k0 + i) q) q).
Proof.
  intros Hp HP HE. induction cs as [|c cs IH]; intros k0 cfs lc nm r NM E L; cbn [check_coords] in E.
  - injection E as <-. destruct lc; [|discriminate]. split; [constructor|]. intros _. split; [reflexivity|]. intros [|i] ? ?; discriminate.
  - destruct cfs as [|f cfs]; [discriminate|]. destruct lc as [|l lc]; [discriminate|]. destruct nm as [|a nm]; [discriminate|].
    assert (NA : nth_error (im_coords q) k0 = Some a) by (clear -NM; revert k0 NM; generalize (im_coords q); intros L; induction L as [|x L IHL]; intros [|k0] E; cbn in *; try discriminate; [injection E as -> _; reflexivity|apply IHL; exact E]).
    assert (NM2 : nm = skipn (S k0) (im_coords q)) by (clear -NM; revert k0 NM; generalize (im_coords q); intros L; induction L as [|x L IHL]; intros [|k0] E; cbn in *; try discriminate; [injection E as _ ->; reflexivity|apply IHL; exact E]).
    destruct (check_param_nmod_poly undef (fst a) (co c) f (co el d) (Z.of_nat d) (co (snd a)) (im_p q)) eqn:EC.
    + injection E as <-. cbn [fst snd]. split; [constructor; [discriminate|apply flags_refl]|discriminate].
    + destruct (check_coords undef (co el d) d (im_p q) cs cfs lc nm) as [r'|] eqn:ER; cbn [obind] in E; [|discriminate]. injection E as <-. cbn [fst snd]. destruct (IH (S k0) cfs lc nm r' NM2 ER ltac:(cbn in L; lia)) as (A & B). split; [constructor; [auto|exact A]|]. intros HF. destruct (B HF) as (B1 & B2). split; [rewrite B1; reflexivity|].
      intros [|i] c' f' H1 H2; cbn in H1, H2; [|rewrite Nat.add_succ_r; apply (B2 i c' f' H1 H2)]. injection H1 as <-. injection H2 as <-. rewrite Nat.add_0_r. destruct (Z.eq_dec (f mod im_p q) 0) as [F0|F0]; [left; apply Z.mod_divide; [pose proof (prime_ge_2 _ Hp); lia|exact F0]|]. right.
      assert (NF : ~ (im_p q | f)) by (intros X; apply F0; apply Znumtheory.Zdivide_mod; exact X). assert (ND : ~ (im_p q | co el d * f * Z.of_nat d)).
      { intros X. apply prime_mult in X; [|exact Hp]. destruct X as [X|X]; [apply prime_mult in X; [tauto|exact Hp]|]. apply Z.divide_pos_le in X; lia. }
      pose proof (proj1 (C09_check_param undef _ _ _ _ _ _ _ Hp ND) EC) as G. intros j Hj. unfold im_len in Hj. rewrite (nth_error_nth _ _ _ NA) in Hj. specialize (G j Hj). unfold im_co. rewrite (nth_error_nth _ _ _ NA). replace (f * (co el d * Z.of_nat d) * co (snd a) j) with (co el d * f * Z.of_nat d * co (snd a) j) by ring. exact G.
Qed.
Lemma check_ok U s q undef s' b : Inv U s -> ok_im q -> check_param_modular undef s q = Some (s', b) ->
  Inv U s' /\ (b = false -> Passed s' q /\ s_le s' = s_le s /\ s_lc s' = s_lc s).
Proof.
  intros HI HK E. destruct HI as [Ine Iok Im Ice Icc Ilen Ics Inle Ile Itr Idt]. destruct HK as ((K1 & K2) & K3 & K4 & K5 & K6 & K7). unfold check_param_modular in E. assert (LD : (length (s_elim s) - 1)%nat = d) by lia. rewrite LD in E.
  assert (NR : forall i, (i < S d)%nat -> 0 <= co (im_elim q) i < im_p q) by (intros i Hi; apply K5; apply nth_In; lia). assert (MO : co (im_elim q) (S d - 1) = 1) by (replace (S d - 1)%nat with d by lia; exact K4).
  destruct (C09_check_unit (S d) (co (s_elim s)) (co (im_elim q)) (im_p q) K1 ltac:(lia) ltac:(lia) MO NR) as (r & ER & HR). rewrite ER in E. cbn [obind] in E. replace (S d - 1)%nat with d in HR by lia. destruct (Nat.eqb_spec r 0) as [R0|R0]; cbn [negb] in E.
  - destruct (proj1 HR R0) as (N1 & N2). destruct (check_coords undef _ d (im_p q) (s_coords s) (s_cfs s) (s_lc s) (im_coords q)) as [rr|] eqn:EC; cbn [obind] in E; [|discriminate]. injection E as <- <-.
    destruct (check_coords_ok undef (s_elim s) q K1 ltac:(lia) N1 (s_coords s) 0%nat (s_cfs s) (s_lc s) (im_coords q) rr eq_refl EC ltac:(apply Ics)) as (F1 & F2). split.
    + constructor; cbn [s_m s_ce s_cc s_elim s_coords s_cfs s_le s_lc s_tr s_dt]; try assumption; [apply (CS_weak _ _ _ _ _ (s_lc s)); assumption|]. intros HF l Hl. specialize (Inle HF). clear -F1 Hl Inle. induction F1; [contradiction|]. destruct Hl as [<-|Hl]; [destruct x; [|reflexivity]; specialize (H eq_refl); subst y; apply (Inle true); left; reflexivity|apply IHF1; [intros l1 H0; apply Inle; right; exact H0|exact Hl]].
    + intros HB. destruct (F2 HB) as (G1 & G2). split; [|split; [reflexivity|exact G1]]. split; [exact N1|]. split; [intros i Hi; apply N2; lia|]. exact G2.
  - injection E as <- <-. split; [|discriminate]. constructor; cbn [s_m s_ce s_cc s_elim s_coords s_cfs s_le s_lc s_tr s_dt]; try assumption; [apply (CS_weak _ _ _ _ _ (s_lc s)); [apply flags_false|exact Ics]| |discriminate]. intros _ l Hl. apply in_map_iff in Hl as (? & <- & _). reflexivity.
Qed.

Variable im0 : image.
Record LI (P : list image) (l : loop) : Prop := {
  LI_inv : exists U, Inv (im0 :: U) (l_s l) /\ incl (im0 :: U) (im0 :: P) /\ NoDup (ims_p (im0 :: U)) /\
    (l_rerun l = false -> l_mcheck l = false -> exists q, In q P /\ ~ In (im_p q) (ims_p (im0 :: U)) /\ Passed (l_s l) q);
  LI_done : l_rerun l = false -> s_le (l_s l) = true /\ forall b, In b (s_lc (l_s l)) -> b = true }.
Definition primes_good (L : list image) : Prop := forall im, In im L -> ok_im im /\ In im All.
Lemma NoDup_notin {A B} (f : A -> B) (P R : list A) x : NoDup (map f (P ++ x :: R)) -> ~ In (f x) (map f P).
Proof. rewrite map_app. cbn [map]. intros N H. apply NoDup_remove_2 in N. apply N. apply in_or_app. left. exact H. Qed.
Lemma incl_in {A B} (f : A -> B) (U P : list A) y : incl U P -> In y (map f U) -> In y (map f P).
Proof. intros I H. apply in_map_iff in H as (x & <- & H). apply in_map. apply I. exact H. Qed.
Lemma one_thread_ok P doit t l l' R : LI P l -> primes_good ((im0 :: P) ++ good_threads [t] ++ R) -> NoDup (ims_p ((im0 :: P) ++ good_threads [t] ++ R)) ->
  one_thread doit t l = Some (Go l') -> LI (P ++ good_threads [t]) l'.
Proof.
  intros [(U & HI & HU & HN & HQ) HD] HG ND E. unfold one_thread in E. cbn [good_threads] in *. destruct (t_im t) as [im|].
  2:{ destruct (l_np l <? S (l_nbad l))%nat; [discriminate|]. injection E as <-. rewrite app_nil_r. constructor; cbn [l_s l_rerun l_mcheck]; [exists U; split; [exact HI|]; split; [exact HU|]; split; [exact HN|exact HQ]|exact HD]. }
  assert (HK : ok_im im /\ In im All) by (apply HG; apply in_or_app; right; left; reflexivity). destruct HK as [HK HA].
  assert (NI : ~ In (im_p im) (ims_p (im0 :: P))) by (apply (NoDup_notin im_p (im0 :: P) R im); exact ND).
  assert (NU : ~ In (im_p im) (ims_p (im0 :: U))) by (intros X; apply NI; apply (incl_in _ _ _ _ HU X)).
  assert (HC : exists s1 mc, (if l_rerun l then Some (l_s l, l_mcheck l) else check_param_modular (t_undef t) (l_s l) im) = Some (s1, mc) /\ Inv (im0 :: U) s1 /\
     (mc = false -> (l_rerun l = true /\ l_mcheck l = false /\ s1 = l_s l) \/ (l_rerun l = false /\ Passed s1 im /\ s_le s1 = true /\ forall b, In b (s_lc s1) -> b = true))).
  { destruct (l_rerun l) eqn:RR; [exists (l_s l), (l_mcheck l); split; [reflexivity|]; split; [exact HI|]; intros ->; left; split; [reflexivity|]; split; reflexivity|]. destruct (check_param_modular (t_undef t) (l_s l) im) as [[s1 mc]|] eqn:EC; cbn [obind] in E; [|discriminate]. destruct (check_ok _ _ _ _ _ _ HI HK EC) as (A & B). exists s1, mc. split; [reflexivity|]. split; [exact A|]. intros HM. right. destruct (B HM) as (B1 & B2 & B3). split; [reflexivity|]. split; [exact B1|]. rewrite B2, B3. apply HD. reflexivity. }
  destruct HC as (s1 & mc & EC & HI1 & HM). rewrite EC in E. cbn [obind fst snd] in E.
  assert (IN : incl (im0 :: U) (im0 :: P ++ [im])) by (intros x Hx; pose proof (HU x Hx) as HX; destruct HX as [->|HX]; [left; reflexivity|right; apply in_or_app; left; exact HX]).
  destruct mc.
  - destruct (recon s1 im doit) as [[s2 b]|] eqn:ER; cbn [obind fst snd] in E; [|discriminate]. injection E as <-.
    assert (PO : primes_ok (im_p im :: ims_p (im0 :: U))).
    { split; [|constructor; assumption]. intros p [<-|Hp]; [destruct HK as ((K1 & K2) & _); split; [exact K1|lia]|]. unfold ims_p in Hp. apply in_map_iff in Hp as (x & <- & Hx). assert (HX : ok_im x) by (apply (I_ok _ _ _ _ _ HI1); exact Hx). destruct HX as ((K1 & K2) & _). split; [exact K1|lia]. }
    destruct (recon_ok d nc All _ _ _ _ _ _ HI1 HK HA PO ER) as (A & B). constructor; cbn [l_s l_rerun l_mcheck].
    + exists (U ++ [im]). split; [exact A|]. split; [intros x Hx; change (im0 :: U ++ [im]) with ((im0 :: U) ++ [im]) in Hx; apply in_app_or in Hx as [Hx|[<-|[]]]; [apply IN; exact Hx|right; apply in_or_app; right; left; reflexivity]|]. split; [|discriminate].
      unfold ims_p. change (im0 :: U ++ [im]) with ((im0 :: U) ++ [im]). rewrite map_app. apply NoDup_snoc; assumption.
    + intros HB. apply B. destruct b; [reflexivity|discriminate].
  - injection E as <-. destruct (HM eq_refl) as [(R1 & M1 & ->)|(R1 & PS & DL)].
    + constructor; cbn [l_s l_rerun l_mcheck]; [|rewrite R1; discriminate]. exists U. split; [exact HI1|]. split; [exact IN|]. split; [exact HN|]. rewrite R1. discriminate.
    + constructor; cbn [l_s l_rerun l_mcheck]; [|intros _; exact DL]. exists U. split; [exact HI1|]. split; [exact IN|]. split; [exact HN|]. intros _ _. exists im. split; [apply in_or_app; right; left; reflexivity|]. split; [exact NU|exact PS].
Qed.
Lemma good_cons t ts : good_threads (t :: ts) = good_threads [t] ++ good_threads ts.
Proof. cbn. destruct (t_im t); reflexivity. Qed.
Lemma threads_ok doit : forall ts P l l' R, LI P l -> primes_good ((im0 :: P) ++ good_threads ts ++ R) -> NoDup (ims_p ((im0 :: P) ++ good_threads ts ++ R)) -> threads doit ts l = Some (Go l') -> LI (P ++ good_threads ts) l'.
Proof.
  induction ts as [|t ts IH]; intros P l l' R HL HG ND E; cbn [threads] in E; [injection E as <-; cbn; rewrite app_nil_r; exact HL|]. destruct (one_thread doit t l) as [[l1|]|] eqn:E1; cbn [obind] in E; try discriminate. rewrite good_cons in *.
  rewrite <- app_assoc in HG, ND. pose proof (one_thread_ok P doit t l l1 (good_threads ts ++ R) HL HG ND E1) as H1. rewrite app_assoc. apply (IH (P ++ good_threads [t]) l1 l' R H1); [| |exact E].
  - change (im0 :: P ++ good_threads [t]) with ((im0 :: P) ++ good_threads [t]). rewrite <- app_assoc. exact HG.
  - change (im0 :: P ++ good_threads [t]) with ((im0 :: P) ++ good_threads [t]). rewrite <- app_assoc. exact ND.
Qed.
Lemma run_ok : forall bs P l s, LI P l -> primes_good ((im0 :: P) ++ goods bs) -> NoDup (ims_p ((im0 :: P) ++ goods bs)) -> run bs l = Some (Finished s) ->
  exists P' l', incl P' (P ++ goods bs) /\ LI P' l' /\ l_rerun l' = false /\ l_mcheck l' = false /\ l_s l' = s.
Proof.
  induction bs as [|[doit ts] bs IH]; intros P l s HL HG ND E; cbn [run fst snd] in E; [discriminate|]. destruct (threads doit ts l) as [[l1|]|] eqn:E1; cbn [obind] in E; try discriminate. cbn [goods flat_map snd] in HG, ND. fold (goods bs) in HG, ND.
  pose proof (threads_ok doit ts P l l1 (goods bs) HL HG ND E1) as H1. cbn [goods flat_map snd]. fold (goods bs). destruct (l_rerun l1 || l_mcheck l1) eqn:EF.
  - destruct (IH (P ++ good_threads ts) l1 s H1) as (P' & l' & A & B); [| |exact E|exists P', l'; split; [rewrite app_assoc; exact A|exact B]].
    + change (im0 :: P ++ good_threads ts) with ((im0 :: P) ++ good_threads ts). rewrite <- app_assoc. exact HG.
    + change (im0 :: P ++ good_threads ts) with ((im0 :: P) ++ good_threads ts). rewrite <- app_assoc. exact ND.
  - injection E as <-. apply orb_false_iff in EF as [F1 F2]. exists (P ++ good_threads ts), l1. split; [intros x Hx; rewrite app_assoc; apply in_or_app; left; exact Hx|]. split; [exact H1|]. split; [exact F1|]. split; [exact F2|reflexivity].
Qed.
Lemma init_ok : ok_im im0 -> In im0 All -> LI [] (init im0).
Proof.
  intros HK HA. pose proof HK as HK2. destruct HK2 as ((K1 & K2) & K3 & K4 & K5 & K6 & K7). pose proof (prime_ge_2 _ K1). assert (LD : (length (im_elim im0) - 1)%nat = d) by lia. constructor; [|discriminate]. exists []. split; [|split; [intros x Hx; exact Hx|split; [constructor; [intros []|constructor]|discriminate]]].
  constructor; cbn [init l_s s_m s_ce s_cc s_elim s_coords s_cfs s_le s_lc s_tr s_dt w_den]; try (intros; discriminate).
  - intros im [<-|[]]. exact HK.
  - unfold ims_p. cbn. lia.
  - split; [exact K3|]. split; [exact K5|]. intros im i [<-|[]] _. rewrite Z.sub_diag. apply Z.divide_0_r.
  - split; [rewrite map_length; exact K6|]. intros i pol Hi. rewrite nth_error_map in Hi. destruct (nth_error (im_coords im0) i) as [a|] eqn:EA; [|discriminate]. cbn in Hi. injection Hi as <-. destruct (K7 a (nth_error_In _ _ EA)) as (A1 & A2 & A3). rewrite LD. split; [rewrite app_length, firstn_length, repeat_length; lia|]. split.
    + intros x Hx. apply in_app_or in Hx as [Hx|Hx]; [apply A3; rewrite <- (firstn_skipn (fst a) (snd a)); apply in_or_app; left; exact Hx|apply repeat_spec in Hx; lia].
    + intros j im [<-|[]] Hj. unfold im_len in Hj. rewrite (nth_error_nth _ _ _ EA) in Hj. unfold im_co. rewrite (nth_error_nth _ _ _ EA). unfold co. rewrite app_nth1 by (rewrite firstn_length; lia). assert (X : nth j (firstn (fst a) (snd a)) 0 = nth j (snd a) 0) by (rewrite <- (firstn_skipn (fst a) (snd a)) at 2; rewrite app_nth1 by (rewrite firstn_length; lia); reflexivity). rewrite X, Z.sub_diag. apply Z.divide_0_r.
  - split; [rewrite repeat_length; lia|rewrite map_length; exact K6].
  - split; [rewrite !map_length; reflexivity|]. split; [rewrite !map_length; reflexivity|]. intros i c f l H1 _ H3. rewrite nth_error_map in H1, H3. destruct (nth_error (im_coords im0) i); [|discriminate]. cbn in H1, H3. injection H1 as <-. injection H3 as <-. split; [rewrite repeat_length; exact LD|]. split; [|discriminate]. intros j _. unfold co. apply nth_repeat.
  - intros _ l Hl. apply in_map_iff in Hl as (? & <- & _). reflexivity.
Qed.
End run.
