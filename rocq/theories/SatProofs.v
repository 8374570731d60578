(** The saturation as a whole: the basis stays between the ideal and its saturation; what a positive test means. *)
From Coq Require Import ZArith NArith Arith List Bool Lia Permutation Sorted Znumtheory.
From Verif Require Import UpdProps LinSpec MonoSpec MonoModel MonoSpecProofs MonoCmpProofs GbSpec GbProofs GbIdeal LaModel LaSpec LaProofs LaRowProofs LaSysProofs LaProps F4Model UpdProofs F4Rows SymbProofs SelProofs MatProofs RoundProofs FinalProofs NfProofs F4Props ProbModel ProbProps SatModel SatSpec SatAlg SatLa SatKer SatRed QuotProofs.
Import ListNotations.
Open Scope Z_scope.

Section Ext.
Variable c : config.
Hypothesis CK : cfg_ok c.
Let o := c_o c.
Let nv := o_nv o.
Let lt := o_lt o.
Let p := c_p c.
Let MO : mono_order nv lt := o_lt_order o.
Let Hp : 1 < p := cfg_p c CK.

(** the end of core_f4 *)
Lemma finish_ok F b ps out : finv c F b ps -> done b ps = true -> Forall (mpoly nv lt p) F -> final_spec c (map e_pol (b_el b)) (kpolys (b_el b) (final_lmps b)) out -> good_result c true F out.
Proof.
  intros HI Hd MF FS. destruct (final_lmps_spec nv b ps _ (fi_u _ _ _ _ HI) (fi_lo _ _ _ _ HI)) as (L1 & L2 & L3 & L4). destruct (kept_leads c CK b ps F HI Hd) as [K1 K2]. set (K := final_lmps b) in *. set (G := kpolys (b_el b) K) in *.
  pose proof (fi_els _ _ _ _ HI) as HE. assert (GF' : Forall (good nv lt) F) by (apply Forall_forall; intros f Hf; rewrite Forall_forall in MF; apply (mpoly_good nv lt p); auto).
  assert (Concl : forall out, (forall f, In f out -> mpoly nv lt p f) -> (forall f, In f out -> ideal nv p (pfs F) (cf f)) -> Permutation (map lmono out) (map lmono G) -> same_ideal nv p (pfs F) (pfs out) /\ groebner nv lt p (pfs out)).
  { intros out0 M I0 P. destruct (gb_subset nv lt p MO (P1 p Hp) F out0 GF') as [A B].
    - apply Forall_forall. intros f Hf. apply (mpoly_good nv lt p). auto.
    - exact I0.
    - intros f m Hf Hm. destruct (K2 f m Hf Hm) as (g & Hg & Hdv). apply (in_map lmono) in Hg. apply (Permutation_in _ (Permutation_sym P)) in Hg. apply in_map_iff in Hg as (h & E & Hh). exists h. split; [exact Hh|]. change (lm h) with (lmono h). rewrite E. exact Hdv.
    - split; [exact A|exact B]. }
  assert (Ideal' : forall f, ideal nv p (pfs (polys b)) f -> ideal nv p (pfs F) f) by (apply ideal_incl; intros f (g & Hg & ->); apply (fi_ideal _ _ _ _ HI); exact Hg).
  assert (MinG : forall i j f g, nth_error G i = Some f -> nth_error G j = Some g -> i <> j -> ~ mdvd (lmono f) (lmono g)).
  { intros i j f g Hi Hj N. unfold G, kpolys in Hi, Hj. rewrite nth_error_map in Hi, Hj. destruct (nth_error K i) as [ki|] eqn:Ei; [|discriminate]. destruct (nth_error K j) as [kj|] eqn:Ej; [|discriminate]. injection Hi as <-. injection Hj as <-. apply (L4 ki kj); [eapply nth_error_In; eassumption|eapply nth_error_In; eassumption|]. intros ->. apply N. apply (proj1 (NoDup_nth_error K) L2); [apply nth_error_Some; congruence|congruence]. }
  destruct FS as [S1 S2 S3 S4 S5]. fold o nv lt p in S1, S2, S4, S5.
  destruct (Concl out S1) as [Q1 Q2]; [intros f Hf; apply Ideal'; apply S2; exact Hf|exact S3|].
  assert (Lead : forall f l, In f out -> is_lead nv lt p (cf f) l -> l = lmono f) by (intros f l Hf Hl; apply (lead_unique nv lt p MO (cf f)); [exact Hl|apply mpoly_lead; auto]).
  assert (InG : forall f, In f out -> exists g, In g G /\ lmono g = lmono f) by (intros f Hf; apply (in_map lmono) in Hf; apply (Permutation_in _ S3) in Hf; apply in_map_iff in Hf as (g & E & Hg); exists g; auto).
  assert (NdL : forall i j f g, nth_error out i = Some f -> nth_error out j = Some g -> i <> j -> lmono f <> lmono g).
  { intros i j f g Hi Hj N E. destruct (Nat.lt_trichotomy i j) as [L|[L|L]]; [|contradiction|].
    - pose proof (FOP_nth _ _ S5 i j f g L Hi Hj) as T. cbv beta in T. rewrite E in T. apply (lt_irr nv lt MO _ T).
    - pose proof (FOP_nth _ _ S5 j i g f L Hj Hi) as T. cbv beta in T. rewrite E in T. apply (lt_irr nv lt MO _ T). }
  assert (Red : forall i j f g m, nth_error out i = Some f -> nth_error out j = Some g -> i <> j -> ~ eqp p (cf g m) 0 -> ~ mdvd (lmono f) m).
  { intros i j f g m Hi Hj N Nz Hdv. assert (Hf : In f out) by (eapply nth_error_In; eassumption). assert (Hg : In g out) by (eapply nth_error_In; eassumption).
    destruct (cf_nz g m) as (t & Ht & <-); [intros K0; apply Nz; rewrite K0; reflexivity|]. destruct (InG f Hf) as (f0 & Hf0 & E0). rewrite <- E0 in Hdv. destruct (S4 g t Hg Ht) as [E|E]; [|apply (E f0 Hf0); exact Hdv].
    destruct (InG g Hg) as (g0 & Hg0 & E1). rewrite E, <- E1 in Hdv. apply In_nth_error in Hf0 as (i0 & Hi0). apply In_nth_error in Hg0 as (j0 & Hj0). apply (MinG i0 j0 f0 g0 Hi0 Hj0); [|exact Hdv]. intros ->. apply (NdL i j f g Hi Hj N). congruence. }
  split; [exact Q1|]. split; [exact Q2|]. split; [|split; [exact S1|]].
  - intros i j f g l m Hi Hj N Hl Hm. rewrite (Lead f l) by (try exact Hl; eapply nth_error_In; eassumption). apply (Red i j f g m Hi Hj N). apply Hm.
  - intros _. split; [|exact S5]. split.
    + intros f Hf. exists (lmono f). split; [apply mpoly_lead; auto|]. pose proof (good_lc nv lt MO f (mpoly_good nv lt p f (S1 f Hf))) as E. change (lm f) with (lmono f) in E. rewrite E. reflexivity.
    + intros i j f g l m Hi Hj N Hl _ Nz. rewrite (Lead f l) by (try exact Hl; eapply nth_error_In; eassumption). apply (Red i j f g m Hi Hj N Nz).
Qed.

(** more generators *)
Definition same_arrays (b b0 : basis) : Prop := b_el b0 = b_el b /\ b_red b0 = b_red b /\ b_lmps b0 = b_lmps b /\ b_lo b0 = b_lo b.
Lemma uinv_same b b0 ps Dn : same_arrays b b0 -> uinv nv b ps Dn -> uinv nv b0 ps Dn.
Proof. intros (E1 & E2 & E3 & E4) [Ured Uels Ups Udn Udom Ucov Ulo Ulm Uall Und]. constructor; rewrite ?E1, ?E2, ?E3, ?E4; assumption. Qed.
Lemma news_els news : (forall f, In f news -> mpoly nv lt p f) -> forall e, In e (map (mk_elt (o_nev o)) news) -> 0 <= e_deg e /\ length (e_lm e) = nv.
Proof. intros H e He. apply in_map_iff in He as (f & <- & Hf). split; [apply elt_deg_nonneg|]. apply (mpoly_lm nv lt p f (H f Hf)). Qed.
Lemma finv_ext F b b0 ps news b' ps' : finv c F b ps -> (forall f, In f news -> mpoly nv lt p f) -> same_arrays b b0 ->
  (b_const b0 = true -> b_const b = true \/ exists f, In f news /\ lmono f = mone nv) ->
  update_basis o b0 ps (map (mk_elt (o_nev o)) news) = Ok (b', ps') -> finv c (F ++ news) b' ps' /\ polys b' = polys b ++ news.
Proof.
  intros [U HE Hlo HG HId HC] HM SA Hc E. pose proof (update_uinv nv o b0 ps _ _ (uinv_same b b0 ps _ SA U) (news_els news HM)) as K. rewrite E in K. destruct K as (U' & Eel & Elo & Ec). destruct SA as (A1 & _).
  rewrite A1 in Eel. assert (Pel : map e_pol (map (mk_elt (o_nev o)) news) = news) by (rewrite map_map; cbn [mk_elt e_pol]; apply map_id).
  assert (Pol : polys b' = polys b ++ news) by (unfold polys; rewrite Eel, map_app, Pel; reflexivity). split; [|exact Pol]. constructor.
  - eapply select_uinv; [exact U'|auto| |intros i j (H1 & H2 & _); split; assumption|auto]. intros i j (H1 & H2 & H3). split; [rewrite Eel, app_length; lia|]. split; [rewrite Eel, app_length; lia|]. rewrite Pol, Eel. unfold Lm in *. fold dd in *. rewrite !app_nth1 by assumption. eapply Rep_incl; [|exact H3]. intros g Hg. apply in_or_app. left. exact Hg.
  - intros e He. rewrite Eel in He. apply in_app_or in He as [He|He]; [apply HE; exact He|]. apply in_map_iff in He as (f & <- & Hf). apply HM. exact Hf.
  - exact Elo.
  - intros f Hf. rewrite Pol. apply in_app_or in Hf as [Hf|Hf]; apply in_or_app; [left; apply HG; exact Hf|right; exact Hf].
  - intros f Hf. rewrite Pol in Hf. apply in_app_or in Hf as [Hf|Hf].
    + apply (ideal_incl nv p (pfs F)); [|apply HId; exact Hf]. intros g (h & Hh & ->). apply ideal_gen. exists h. split; [apply in_or_app; left; exact Hh|reflexivity].
    + apply ideal_gen. exists f. split; [apply in_or_app; right; exact Hf|reflexivity].
  - rewrite Ec. intros K. destruct (Hc K) as [K1|(f & Hf & E1)]; [destruct (HC K1) as (f & Hf & E1)|]; exists f; rewrite Pol; (split; [apply in_or_app; auto|exact E1]).
Qed.
Lemma const_news b news : (forall f, In f news -> mpoly nv lt p f) -> b_const (with_const b (map (mk_elt (o_nev o)) news)) = true -> b_const b = true \/ exists f, In f news /\ lmono f = mone nv.
Proof.
  intros HM K. cbn [with_const b_const] in K. apply orb_prop in K as [K|K]; [left; exact K|right]. apply existsb_exists in K as (e & He & K). apply in_map_iff in He as (f & <- & Hf). cbn [mk_elt e_deg] in K. apply Z.eqb_eq in K. exists f. split; [exact Hf|]. apply (elt_deg_0 c); [apply HM; exact Hf|exact K].
Qed.
Lemma finv_same F b b0 ps : finv c F b ps -> same_arrays b b0 -> b_const b0 = b_const b -> finv c F b0 ps.
Proof.
  intros [U HE Hlo HG HId HC] SA Ec. pose proof SA as (A1 & A2 & A3 & A4). assert (Pol : polys b0 = polys b) by (unfold polys; rewrite A1; reflexivity). constructor; rewrite ?Pol, ?A1, ?A4, ?Ec; try assumption. rewrite <- A1, <- Pol. rewrite <- Pol, <- A1 in U. apply (uinv_same b); [exact SA|exact U].
Qed.
Lemma update_room_ok a b ps news b' ps' : update_room o a b ps news = Ok (b', ps') -> update_basis o b ps news = Ok (b', ps').
Proof. unfold update_room. destruct (update_basis o b ps news) as [[b1 ps1]| | |]; cbn [rbind]; try discriminate. destruct (_ && _); [|discriminate]. intros E. injection E as <- <-. reflexivity. Qed.
Lemma sround_round fuel r a b ps a' b' ps' g : sround c fuel r a b ps = Ok (a', b', ps', g) -> round c fuel r b ps = Ok (b', ps').
Proof.
  unfold sround, round. destruct (round_matrix c fuel r b ps) as [[[ps1 cols] [rr tr]]| | |]; cbn [rbind]; try discriminate. destruct (round_rows c r cols rr tr) as [news| | |]; cbn [rbind]; try discriminate.
  destruct (update_room _ _ _ _ _) as [[b1 ps2]| | |] eqn:E; cbn [rbind]; try discriminate. intros K. injection K as _ <- <- _. apply update_room_ok in E. exact E.
Qed.

(** the test works on a basis for which only membership is known *)
Record winv (H : list (list (Z * mono))) (b : basis) (ps : list spair) : Prop := {
  wi_u : uinv nv b ps (fun i j => (i < length (b_el b))%nat /\ (j < length (b_el b))%nat);
  wi_els : els_ok nv lt p (b_el b);
  wi_ideal : forall f, In f (polys b) -> ideal nv p (pfs H) (cf f);
  wi_const : b_const b = true -> exists f, In f (polys b) /\ lmono f = mone nv }.
Lemma winv_ext H b b0 ps news b' ps' : winv H b ps -> (forall f, In f news -> mpoly nv lt p f /\ ideal nv p (pfs H) (cf f)) -> same_arrays b b0 ->
  (b_const b0 = true -> b_const b = true \/ exists f, In f news /\ lmono f = mone nv) ->
  update_basis o b0 ps (map (mk_elt (o_nev o)) news) = Ok (b', ps') -> winv H b' ps'.
Proof.
  intros [U HE HId HC] HM SA Hc E. pose proof (update_uinv nv o b0 ps _ _ (uinv_same b b0 ps _ SA U) (news_els news (fun f Hf => proj1 (HM f Hf)))) as K. rewrite E in K. destruct K as (U' & Eel & Elo & Ec). destruct SA as (A1 & _).
  rewrite A1 in Eel. assert (Pel : map e_pol (map (mk_elt (o_nev o)) news) = news) by (rewrite map_map; cbn [mk_elt e_pol]; apply map_id).
  assert (Pol : polys b' = polys b ++ news) by (unfold polys; rewrite Eel, map_app, Pel; reflexivity). constructor.
  - eapply select_uinv; [exact U'|auto| |auto|auto]. intros i j (H1 & H2). rewrite Eel, app_length. lia.
  - intros e He. rewrite Eel in He. apply in_app_or in He as [He|He]; [apply HE; exact He|]. apply in_map_iff in He as (f & <- & Hf). apply (HM f Hf).
  - intros f Hf. rewrite Pol in Hf. apply in_app_or in Hf as [Hf|Hf]; [apply HId; exact Hf|apply (HM f Hf)].
  - rewrite Ec. intros K. destruct (Hc K) as [K1|(f & Hf & E1)]; [destruct (HC K1) as (f & Hf & E1)|]; exists f; rewrite Pol; (split; [apply in_or_app; auto|exact E1]).
Qed.
Lemma finv_winv F b ps : finv c F b ps -> winv F b ps.
Proof.
  intros [U HE Hlo HG HId HC]. constructor; auto. eapply select_uinv; [exact U|auto| |auto|auto]. intros i j (H1 & H2 & _). auto.
Qed.
End Ext.

Section Sat.
Variable x : sconfig.
Let c := x_c x.
Hypothesis CK : cfg_ok (x_c x).
Hypothesis CK31 : c_k (x_c x) = K31.
Hypothesis H15 : 2 ^ 15 <= c_p (x_c x).
Hypothesis Hperm : forall n l, Permutation (x_perm x n l) l.
Hypothesis Hev : forall n i j, random (x_evs x n i j).
Let o := c_o c.
Let nv := o_nv o.
Let lt := o_lt o.
Let p := c_p c.
Let MO : mono_order nv lt := o_lt_order o.
Let Hp : 1 < p := cfg_p c CK.
Hypothesis Hnv : (0 < o_nv (c_o (x_c x)))%nat.
Variables (F : list (list (Z * mono))) (phi : list (Z * mono)).
Hypothesis MF : Forall (mpoly nv lt p) F.
Hypothesis Sphi : sorted_poly nv lt p phi.

Lemma phi_vars : in_vars nv phi.
Proof. intros t Ht. destruct Sphi as (_ & K & _). apply (K t Ht). Qed.

(** the generators so far *)
Definition mid (H : list (list (Z * mono))) : Prop := Forall (mpoly nv lt p) H /\ incl F H /\ exists n, forall f, In f H -> ideal nv p (pfs F) (pprods phi n (cf f)).
Lemma mid_0 : mid F.
Proof. split; [exact MF|]. split; [apply incl_refl|]. exists O. intros f Hf. apply ideal_gen. exists f. auto. Qed.
Lemma mid_ideal H : mid H -> exists n, forall f, ideal nv p (pfs H) f -> ideal nv p (pfs F) (pprods phi n f).
Proof. intros (_ & _ & n & Hn). exists n. apply (pprods_gens nv p); [apply phi_vars|]. intros g (f & Hf & ->). apply Hn. exact Hf. Qed.
Lemma mid_ext H B news : mid H -> (forall f, In f B -> ideal nv p (pfs H) (cf f)) -> (forall f, In f news -> mpoly nv lt p f /\ ideal nv p (pfs B) (pprod phi (cf f))) -> mid (H ++ news).
Proof.
  intros HM HB HN. destruct (mid_ideal H HM) as (n & Hn). destruct HM as (H1 & H2 & _). split; [|split].
  - apply Forall_forall. intros f Hf. apply in_app_or in Hf as [Hf|Hf]; [rewrite Forall_forall in H1; auto|apply (HN f Hf)].
  - intros f Hf. apply in_or_app. left. apply H2. exact Hf.
  - exists (n + 1)%nat. intros f Hf. rewrite pprods_add. apply Hn. cbn [pprods]. apply in_app_or in Hf as [Hf|Hf].
    + apply pprod_ideal; [apply phi_vars|]. apply ideal_gen. exists f. auto.
    + apply (ideal_incl nv p (pfs B)); [intros g (h & Hh & ->); apply HB; exact Hh|]. apply (HN f Hf).
Qed.

Definition inv (s : sst) : Prop := exists H, mid H /\ finv c H (t_b s) (t_ps s) /\ forall r, In r (t_sat s) -> srow c (b_el (t_b s)) phi r.
Lemma srow_more els els' r : incl els els' -> srow c els phi r -> srow c els' phi r.
Proof.
  intros HI (H1 & H2 & H3). split; [exact H1|]. split; [exact H2|]. eapply ideal_incl; [|exact H3]. intros g (f & Hf & ->). apply in_map_iff in Hf as (e & <- & He). apply ideal_gen. exists (e_pol e). split; [apply in_map; apply HI; exact He|reflexivity].
Qed.
Lemma update_els b0 ps news b' ps' Dn : uinv nv b0 ps Dn -> (forall f, In f news -> mpoly nv lt p f) -> update_basis o b0 ps (map (mk_elt (o_nev o)) news) = Ok (b', ps') -> incl (b_el b0) (b_el b').
Proof. intros U HM E. pose proof (update_uinv nv o b0 ps Dn (map (mk_elt (o_nev o)) news) U (news_els c news HM)) as K. rewrite E in K. destruct K as (_ & -> & _). intros e He. apply in_or_app. left. exact He. Qed.

Lemma lms_len b ps Dn : uinv nv b ps Dn -> els_ok nv lt p (b_el b) -> forall m, In m (lms_of b) -> length m = nv.
Proof.
  intros U HE m Hm. apply in_map_iff in Hm as (i & <- & Hi). pose proof (ui_lmps _ _ _ _ U i Hi) as Li. pose proof (ui_lo _ _ _ _ U) as Lo. destruct (nth_error (b_el b) i) as [e|] eqn:E; [|apply nth_error_None in E; lia].
  apply (mpoly_lm nv lt p). apply HE. eapply nth_error_In. exact E.
Qed.
Lemma same_refl b els : same_arrays b (with_const b els).
Proof. repeat split. Qed.

Lemma body_ok fuel s ii s' g : inv s -> sat_body x fuel s ii = Ok (s', g) -> inv s'.
Proof.
  intros (H & HM & HI & HS) E. unfold sat_body in E. fold c in E. fold o in E. fold nv in E. pose proof (fi_els _ _ _ _ HI) as HE. pose proof (fi_u _ _ _ _ HI) as U. set (b := t_b s) in *.
  assert (HL : forall i, In i (b_lmps b) -> (i < length (b_el b))%nat) by (intros i Hi; pose proof (ui_lmps _ _ _ _ U i Hi); pose proof (ui_lo _ _ _ _ U); lia).
  destruct (update_mults nv (lms_of b) (Z.to_nat ii) (t_sat s)) as [[old new]| | |] eqn:E1; cbn [rbind] in E; try discriminate.
  destruct (update_mults_ok c (b_el b) phi (lms_of b) (Z.to_nat ii) (t_sat s) old new Hnv (lms_len b _ _ U HE) HS E1) as (R1 & R2). set (rows := old ++ new) in *.
  destruct (symb fuel (b_el b) (b_lmps b) [] 0 0 (sht_rows [] (map snd (new ++ old))) [] []) as [[[sht' leads] rr]| | |] eqn:E2; cbn [rbind] in E; try discriminate.
  pose proof (ker_symb c (b_el b) (b_lmps b) HE HL phi fuel (new ++ old) sht' leads rr) as SP. specialize (SP ltac:(intros r Hr; apply R1; apply in_or_app; apply in_app_or in Hr; tauto) E2).
  set (sht := sht_rows [] (map snd (new ++ old))) in *. assert (HT : forall r t, In r rows -> In t (snd r) -> In (snd t) sht).
  { intros r t Hr Ht. apply sht_rows_in. right. exists (snd r), t. split; [apply in_map; apply in_or_app; apply in_app_or in Hr; tauto|]. auto. }
  destruct rr as [|r0 rr0]; [injection E as <- _; exists H; cbn [t_b t_ps t_sat]; auto|]. remember (r0 :: rr0) as rr eqn:Err. clear Err.
  set (cols := columns o sht' leads) in *. set (hcm := fst cols ++ snd cols) in *. set (hcmm := msort o (map fst rows)) in *.
  destruct (kernel_la (c_p c) hcm hcmm (length (fst cols)) rr rows) as [[ker live]| | |] eqn:E3; cbn [rbind] in E; try discriminate.
  destruct (kernel_la_ok c CK CK31 (b_el b) (b_lmps b) HE phi sht' leads rr rows sht R1 SP HT ker live E3) as (K1 & K2).
  destruct (rmap _ live) as [sat'| | |] eqn:E4; cbn [rbind] in E; try discriminate.
  assert (S4 : forall r, In r sat' -> srow c (b_el b) phi r).
  { intros r Hr. assert (F2 : Forall2 (fun (a : mono * list (nat * Z)) d => exists f, of_row hcm (snd a) = Ok f /\ d = (fst a, f)) live sat').
    { apply (rmap_ok _ _ _ _ E4). intros a d _ Ed. cbv beta in Ed. destruct (of_row hcm (snd a)) as [f| | |] eqn:Ef; cbn [rbind] in Ed; try discriminate. injection Ed as <-. eauto. }
    destruct (F2_in_r _ _ _ _ F2 Hr) as ((m & q) & Hq & f & Ef & ->). cbn [fst snd] in *. apply (live_read c CK (b_el b) (b_lmps b) phi sht' leads rr sht SP m q f (K2 _ Hq) Ef). }
  destruct ker as [|k0 ker0]; [injection E as <- _; exists H; cbn [t_b t_ps t_sat]; auto|]. remember (k0 :: ker0) as ker eqn:Eker. clear Eker.
  unfold when in E. destruct (Z.of_nat (length ker) <? 2 ^ 31) eqn:El; cbn [rbind] in E; [|discriminate]. apply Z.ltb_lt in El.
  destruct (prob_echelon K31 (c_p c) 0 (length rows) (fun _ => None) (x_perm x (t_n s) ker) _) as [l|] eqn:E5; cbn [of_opt rbind] in E; [|discriminate].
  destruct (rmap (of_row hcmm) (rev l)) as [news| | |] eqn:E6; cbn [rbind] in E; try discriminate.
  assert (N : forall f, In f news -> mpoly nv lt p f /\ ideal nv p (pfs (polys b)) (pprod phi (cf f))).
  { eapply (kernel_news c CK CK31 (b_el b) phi phi_vars sht' leads rows R1 R2 (x_perm x (t_n s) ker)); [exact H15| |apply Hev| |exact E5|exact E6].
    - rewrite (Permutation_length (Hperm _ _)). exact El.
    - intros k Hk. apply K1. apply (Permutation_in _ (Hperm _ _) Hk). }
  destruct (update_room _ _ _ _ _) as [[b' ps']| | |] eqn:E7; cbn [rbind] in E; try discriminate. apply update_room_ok in E7. injection E as <- _.
  destruct (finv_ext c H b (with_const b (map (mk_elt (o_nev o)) news)) (t_ps s) news b' ps' HI) as (I' & Pol); [intros f Hf; apply (N f Hf)|apply same_refl|apply const_news; intros f Hf; apply (N f Hf)|exact E7|].
  exists (H ++ news). cbn [t_b t_ps t_sat]. split; [apply (mid_ext H (polys b)); [exact HM|apply (fi_ideal _ _ _ _ HI)|exact N]|]. split; [exact I'|]. intros r Hr. apply (srow_more (b_el b)); [|apply S4; exact Hr].
  eapply (update_els (with_const b (map (mk_elt (o_nev o)) news))); [eapply (uinv_same c); [apply same_refl|exact U]|intros f Hf; apply (N f Hf)|exact E7].
Qed.
Lemma inv_same s s' : t_b s' = t_b s -> t_ps s' = t_ps s -> t_sat s' = t_sat s -> inv s -> inv s'.
Proof. intros E1 E2 E3 (H & K). exists H. rewrite E1, E2, E3. exact K. Qed.
Lemma degs_ok fuel cnt : forall s ii d s', inv s -> sat_degs x fuel cnt s ii d = Ok s' -> inv s'.
Proof.
  induction cnt as [|cnt IH]; intros s ii d s' HI E; cbn [sat_degs] in E; [injection E as <-; eapply inv_same; [| | |exact HI]; reflexivity|].
  destruct (sat_body x fuel s ii) as [[s1 g]| | |] eqn:E1; cbn [rbind] in E; try discriminate. apply body_ok in E1; [|exact HI]. destruct g; [injection E as <-; eapply inv_same; [| | |exact E1]; reflexivity|]. eapply IH; eassumption.
Qed.
Lemma sround_ok fuel r s a b ps found : inv s -> t_ps s <> [] -> sround c fuel r (t_a s) (t_b s) (t_ps s) = Ok (a, b, ps, found) ->
  exists H, mid H /\ finv c H b ps /\ forall r, In r (t_sat s) -> srow c (b_el b) phi r.
Proof.
  intros (H & HM & HI & HS) Hne E. apply sround_round in E. destruct (round_ok c CK H r (t_b s) (t_ps s) HI Hne) as (N & HN). specialize (HN fuel). rewrite E in HN. cbn [okn fst snd] in HN. destruct HN as (I' & PR). exists H. split; [exact HM|]. split; [exact I'|].
  intros q Hq. destruct (HS q Hq) as (A1 & A2 & A3). split; [exact A1|]. split; [exact A2|]. eapply ideal_incl; [|exact A3]. intros g (f & Hf & ->). apply ideal_gen. exists f. split; [|reflexivity]. fold (polys b). fold (polys (t_b s)) in Hf.
  destruct PR as [(f0 & fs & -> & _)|[-> _]]; [apply in_or_app; left; exact Hf|exact Hf].
Qed.

(** ** The test *)
Lemma test_rows_ok H b ps fuel n r rest cols rr tr news : winv c H b ps -> ps <> [] -> round_matrix c fuel r b ps = Ok (rest, cols, (rr, tr)) -> test_rows x n r cols rr tr = Ok news ->
  (forall f, In f news -> mpoly nv lt p f /\ ideal nv p (pfs H) (cf f)) /\ forall q, In q rest -> In q ps.
Proof.
  intros [U HE HId HC] Hne E1 E2. destruct (round_matrix_ok c r b ps _ (ck_o c CK) Hp (ck_m c CK) (ck_sort c CK r) U HE Hne) as (N & HN). specialize (HN fuel). rewrite E1 in HN. cbn [okn] in HN. destruct HN as (sel & sht & leads & SelS & -> & MS).
  split; [|intros q Hq; apply (Permutation_in _ (Permutation_sym (ss_perm _ _ _ _ _ SelS))); apply in_or_app; right; exact Hq].
  destruct MS as [M1 M2 M3 M4 M5 M6 M7 M8 M9]. fold o nv in M2, M6, M7. unfold test_rows in E2. fold c in E2. fold o in E2.
  set (L := fst (columns o sht leads)) in *. set (R := snd (columns o sht leads)) in *. set (hcm := L ++ R) in *. unfold when in E2. destruct (Z.of_nat (length tr) <? 2 ^ 31) eqn:El; cbn [rbind] in E2; [|discriminate]. apply Z.ltb_lt in El.
  pose proof (mat_ok o p (ck_o c CK) sht leads (b_el b) rr tr HE M1 M2 M3 M4 M5 M6 M7) as MK. fold L R in MK. fold hcm in MK. set (tr' := x_perm x n (map (to_row hcm) tr)) in *.
  assert (Ptr : Permutation tr' (map (to_row hcm) tr)) by apply Hperm.
  destruct (prob_echelon K31 (c_p c) (length L) (length hcm) (nth_error (rows_dec (map (to_row hcm) rr))) tr' _) as [l|] eqn:E3; cbn [of_opt rbind] in E2; [|discriminate].
  destruct (C67_sound K31 p (length L) (length hcm) (nth_error (rows_dec (map (to_row hcm) rr))) tr' (x_evs x n (length hcm) (length tr)) l) as (_ & K & _); [|apply Hev|exact E3|].
  { split; [apply (ck_p c CK)|]. split; [rewrite <- CK31; apply (ck_k c CK)|]. split; [exact H15|]. split; [left; reflexivity|]. split; [|rewrite (Permutation_length Ptr), map_length; exact El].
    destruct MK as (Q1 & Q2 & Q3 & Q4). split; [exact Q1|]. split; [exact Q2|]. split; [exact Q3|]. intros q Hq. apply Q4. apply (Permutation_in _ Ptr Hq). }
  assert (F2 : Forall2 (fun r f => of_row hcm r = Ok f) (rev l) news) by (apply (rmap_ok _ _ _ _ E2); auto).
  intros f Hf. destruct (F2_in_r _ _ _ _ F2 Hf) as (q & Hq & E). apply in_rev in Hq. destruct (K q Hq) as (K1 & K2 & j & Hj & K3 & _). pose proof K3 as (A1 & A2 & K4 & q1 & Eq & A4).
  destruct (of_row_ok o hcm q) as (h & Eh & Fh); [exact K4|]. rewrite E in Eh. injection Eh as <-. split.
  - split.
    + destruct (row_sorted nv lt p L R q f) as [->|Q]; [exact (R_dec o (ck_o c CK) sht leads M1 M2)|exact (R_len o sht leads M2)|exact K2| |exact Fh| |exact Q].
      * intros t Ht. rewrite Eq in Ht. destruct Ht as [<-|Ht]; [cbn [fst]; lia|specialize (A4 t Ht); lia].
      * rewrite Eq in Fh. inversion Fh.
    + rewrite Eq in Fh. inversion Fh as [|a0 y ? ? [F1 F3] F']; subst. cbn [fst snd] in F1. destruct y as [y1 y2]. cbn [fst] in F1. subst y1. eexists _, _. reflexivity.
  - assert (HN : NoDup hcm) by exact (hcm_nd o sht leads M1 M4). eapply lspan_ext; [eapply (phi_span o p hcm (gens (nth_error (rows_dec (map (to_row hcm) rr))) tr')); [|exact K1]|intros m _; symmetry; apply (phi_of_row o hcm HN q f m Fh)].
    intros u Hu. assert (G : exists rw, In rw (rr ++ tr) /\ forall m, MatProofs.phi hcm u m = cf rw m).
    { destruct Hu as [(d & w & Hd & ->)|(w & Hw & ->)].
      - apply nth_error_In in Hd. apply (Permutation_in _ (sort_perm _ _)) in Hd. apply in_map_iff in Hd as (rw & <- & Hrw). exists rw. split; [apply in_or_app; left; exact Hrw|]. intros m. apply (phi_to_row o hcm HN). intros t Ht. apply (hcm_in o sht leads M4). apply (M6 rw Hrw). exact Ht.
      - apply (Permutation_in _ Ptr) in Hw. apply in_map_iff in Hw as (rw & <- & Hrw). exists rw. split; [apply in_or_app; right; exact Hrw|]. intros m. apply (phi_to_row o hcm HN). intros t Ht. apply (hcm_in o sht leads M4). apply (M7 rw Hrw). exact Ht. }
    destruct G as (rw & Hrw & Erw). assert (Mr : mrow nv (b_el b) rw) by (apply in_app_or in Hrw as [Q|Q]; [apply (M6 _ Q)|apply (M7 _ Q)]). destruct Mr as (e & v & He & Lv & ->).
    eapply lspan_ext; [apply (ideal_mul nv p (pfs H) v (cf (e_pol e))); [exact Lv|apply HId; apply in_map; exact He]|]. intros m Hm. cbv beta. transitivity (cf (mulp v (e_pol e)) m); [apply Erw|apply (row_cf c (b_el b) e v HE He Lv m Hm)].
Qed.
Lemma test_ok H fuel : forall n r a b ps a' b' n', winv c H b ps -> test_loop x fuel n r a b ps = Ok (a', b', n') -> exists ps', winv c H b' ps'.
Proof.
  induction fuel as [|fuel IH]; intros n r a b ps a' b' n' HW E; cbn [test_loop] in E; (destruct (done b ps) eqn:Ed; [injection E as _ <- _; exists ps; exact HW|]); [discriminate|].
  fold c in E. destruct (round_matrix c (S fuel) r b ps) as [[[rest cols] [rr tr]]| | |] eqn:E1; cbn [rbind] in E; try discriminate. destruct (test_rows x n r cols rr tr) as [news| | |] eqn:E2; cbn [rbind] in E; try discriminate.
  assert (Hne : ps <> []) by (intros ->; unfold done in Ed; rewrite orb_true_r in Ed; discriminate).
  destruct (test_rows_ok H b ps (S fuel) n r rest cols rr tr news HW Hne E1 E2) as (N & HR).
  destruct (update_room _ _ _ _ _) as [[b1 ps1]| | |] eqn:E3; cbn [rbind] in E; try discriminate. apply update_room_ok in E3. eapply IH; [|exact E].
  eapply (winv_ext c H b (with_const b (map (mk_elt (o_nev o)) news)) rest news); [|exact N|apply same_refl|apply const_news; intros f Hf; apply (N f Hf)|exact E3].
  destruct HW as [U HE HId HC]. constructor; auto. eapply select_uinv; [exact U|exact HR|auto|auto|]. intros q Hq. right. destruct (ui_ps _ _ _ _ U q Hq) as (L1 & L2 & _). auto.
Qed.
Lemma mone_poly f : mpoly nv lt p f -> lmono f = mone nv -> f = [(1, mone nv)].
Proof.
  intros ((_ & S2 & S3) & l & r & ->) E. cbn [lmono snd] in E. subst l. destruct r as [|t r]; [reflexivity|]. exfalso. pose proof (S3 0%nat 1%nat _ _ eq_refl eq_refl ltac:(lia)) as K. cbn [snd] in K. assert (Lt : length (snd t) = nv) by (apply (S2 t); right; left; reflexivity).
  assert (Ne : snd t <> mone nv) by (intros Q; rewrite Q in K; apply (mo_irrefl _ _ MO _ K)). pose proof (mo_one _ _ MO _ Lt Ne) as K2. apply (mo_irrefl _ _ MO (mone nv)). eapply (mo_trans _ _ MO); [apply mone_length|exact Lt|apply mone_length|exact K2|exact K].
Qed.

(** phi is invertible modulo the ideal of the basis *)
Definition unit_mod (b : basis) : Prop := ideal nv p (fun h => pfs (polys b) h \/ h = cf phi) (pone nv).
Lemma already_ok H fuel n a b row yes a' b' n' : finv c H b [] -> srow c (b_el b) phi (mone nv, row) -> already_saturated x fuel n a b row = Ok (yes, a', b', n') ->
  same_arrays b b' /\ b_const b' = b_const b /\ (yes = true -> (exists l r, row = (1, l) :: r) -> unit_mod b).
Proof.
  intros HI HS E. unfold already_saturated in E. fold c in E. fold o in E. destruct (update_room o (enlarge (length (b_el b)) 1 a) b [] _) as [[b1 ps1]| | |] eqn:E1; cbn [rbind] in E; try discriminate.
  destruct (test_loop x fuel n 0 _ b1 ps1) as [[[a2 b2] n2]| | |] eqn:E2; cbn [rbind] in E; try discriminate. injection E as <- _ <- _. split; [repeat split|]. split; [reflexivity|]. intros Hy Hl. apply update_room_ok in E1. destruct HS as (_ & S2 & S3). cbn [fst snd] in S2, S3.
  assert (Mrow : mpoly nv lt p row) by (split; [exact S2|exact Hl]). set (H1 := polys b ++ [row]).
  assert (W : winv c H1 b []).
  { destruct (finv_winv c H b [] HI) as [W1 W2 W3 W4]. constructor; auto. intros f Hf. apply ideal_gen. exists f. split; [apply in_or_app; left; exact Hf|reflexivity]. }
  assert (W1 : winv c H1 b1 ps1).
  { eapply (winv_ext c H1 b b [] [row]); [exact W| |repeat split|intros Q; left; exact Q|exact E1]. intros f [<-|[]]. split; [exact Mrow|]. apply ideal_gen. exists row. split; [apply in_or_app; right; left; reflexivity|reflexivity]. }
  destruct (test_ok H1 fuel _ _ _ _ _ _ _ _ W1 E2) as (ps2 & W2). destruct (wi_const _ _ _ _ W2 Hy) as (f & Hf & Ef).
  assert (Mf : mpoly nv lt p f) by (apply in_map_iff in Hf as (e & <- & He); apply (wi_els _ _ _ _ W2 e He)).
  pose proof (wi_ideal _ _ _ _ W2 f Hf) as Id. rewrite (mone_poly f Mf Ef) in Id. unfold unit_mod. fold (pone nv) in Id. fold o in Id. fold nv in Id.
  eapply ideal_incl; [|exact Id]. intros g (h & Hh & ->). apply in_app_or in Hh as [Hh|[<-|[]]]; [apply ideal_gen; left; exists h; auto|].
  eapply lspan_ext; [apply lspan_add; [eapply ideal_incl; [|exact S3]; intros g (h & Hh & ->); apply ideal_gen; left; exists h; auto|apply ideal_gen; right; reflexivity]|].
  intros m Hm. cbv beta. rewrite (pmul_one c) by exact Hm. ring.
Qed.
Lemma step_ok fuel s s' how : inv s -> sat_step x fuel s = Ok (s', how) -> inv s' /\ (how <> None -> t_ps s' = []) /\ (how = Some 1 -> unit_mod (t_b s')).
Proof.
  intros HI E. unfold sat_step in E. fold c in E. fold o in E. fold nv in E. destruct (t_sat s) as [|r0 sat] eqn:Es; [discriminate|]. destruct (mono_eqb (fst r0) (mone nv)) eqn:Em; cbn [negb] in E; [|discriminate]. apply mono_eqb_iff in Em.
  destruct (((_ && _) || _)) eqn:Ec; [|injection E as <- <-; split; [exact HI|]; split; congruence]. set (nopairs := match t_ps s with [] => true | _ => false end) in *.
  destruct (negb (t_nk s =? 0)%nat && nopairs && zero_dim nv (t_b s)) eqn:Et.
  - assert (Eps : t_ps s = []) by (apply andb_prop in Et as [Et _]; apply andb_prop in Et as [_ Et]; unfold nopairs in Et; destruct (t_ps s); [reflexivity|discriminate]).
    destruct (already_saturated x fuel (t_n s) (t_a s) (t_b s) (snd r0)) as [[[[yes a] b] n]| | |] eqn:E1; cbn [rbind] in E; try discriminate.
    destruct HI as (H & HM & HI & HS). rewrite Eps in HI. assert (S0 : srow c (b_el (t_b s)) phi (mone nv, snd r0)) by (rewrite <- Em; rewrite <- surjective_pairing; apply HS; rewrite Es; left; reflexivity).
    destruct (already_ok H fuel _ _ _ _ _ _ _ _ HI S0 E1) as (A1 & A2 & A3).
    set (s1 := {| t_a := a; t_b := b; t_ps := t_ps s; t_sat := r0 :: sat; t_test := t_test s; t_next := t_next s; t_nk := t_nk s; t_n := n |}) in *. assert (I1 : inv s1).
    { exists H. split; [exact HM|]. cbn [s1 t_b t_ps t_sat]. rewrite Eps. split; [apply (finv_same c H (t_b s)); assumption|]. intros r Hr. destruct A1 as (-> & _). apply HS. rewrite Es. exact Hr. }
    destruct yes.
    + injection E as <- <-. split; [exact I1|]. split; [intros _; exact Eps|]. intros Q. assert (Hl : exists l r, snd r0 = (1, l) :: r).
      { destruct (snd r0) as [|[t0 l] r]; [discriminate|]. cbn [fst] in Q. injection Q as ->. eauto. }
      specialize (A3 eq_refl Hl). unfold unit_mod, polys in *. cbn [s1 t_b]. destruct A1 as (-> & _). exact A3.
    + destruct (sat_degs _ _ _ _ _ _) as [s2| | |] eqn:E2; cbn [rbind] in E; try discriminate. injection E as <- <-. split; [eapply degs_ok; eassumption|]. split; congruence.
  - cbn [rbind] in E. destruct (sat_degs _ _ _ _ _ _) as [s2| | |] eqn:E2; cbn [rbind] in E; try discriminate. injection E as <- <-. split; [eapply degs_ok; eassumption|]. split; congruence.
Qed.
Lemma main_ok fuel : forall r s s' how, inv s -> sat_main x fuel r s = Ok (s', how) -> inv s' /\ done (t_b s') (t_ps s') = true /\ (how = Some 1 -> unit_mod (t_b s')).
Proof.
  induction fuel as [|fuel IH]; intros r s s' how HI E; cbn [sat_main] in E.
  - destruct (t_ps s) eqn:Ep; [|discriminate]. injection E as <- <-. split; [exact HI|]. rewrite Ep. split; [unfold done; apply orb_true_r|discriminate].
  - destruct (t_ps s) as [|q0 ps0] eqn:Ep; [injection E as <- <-; split; [exact HI|]; rewrite Ep; split; [unfold done; apply orb_true_r|discriminate]|]. rewrite <- Ep in E. assert (Hne : t_ps s <> []) by congruence. clear Ep q0 ps0.
    fold c in E. destruct (sround c (S fuel) r (t_a s) (t_b s) (t_ps s)) as [[[[a b] ps] found]| | |] eqn:E1; cbn [rbind] in E; try discriminate.
    destruct (sround_ok (S fuel) r s a b ps found HI Hne E1) as (H & HM & I1 & S1). set (s1 := {| t_a := a; t_b := b; t_ps := ps; t_sat := t_sat s; t_test := _; t_next := _; t_nk := _; t_n := _ |}) in E.
    assert (HI1 : inv s1) by (exists H; auto). destruct (b_const b) eqn:Ec.
    + injection E as <- <-. split; [exact HI1|]. split; [unfold done; cbn [s1 t_b]; rewrite Ec; reflexivity|discriminate].
    + destruct (sat_step x (S fuel) s1) as [[s2 yes]| | |] eqn:E2; cbn [rbind] in E; try discriminate. destruct (step_ok _ _ _ _ HI1 E2) as (I2 & D2 & U2). destruct yes as [q|].
      * injection E as <- <-. split; [exact I2|]. split; [|exact U2]. rewrite D2 by discriminate. unfold done. apply orb_true_r.
      * eapply IH; eassumption.
Qed.
End Sat.
