(** The saturation step: rows phi * m modulo the basis, and the kernel elements read off them. *)
From Coq Require Import ZArith NArith Arith List Bool Lia Permutation Sorted Znumtheory.
From Verif Require Import LinSpec MonoSpec MonoModel MonoSpecProofs MonoCmpProofs GbSpec GbProofs GbIdeal LaModel LaSpec LaProofs LaRowProofs LaSysProofs LaProps F4Model UpdProofs F4Rows SymbProofs SelProofs MatProofs RoundProofs FinalProofs NfProofs ProbModel ProbProps SatModel SatSpec SatAlg SatLa QuotProofs.
Import ListNotations.
Open Scope Z_scope.

Lemma rmap_ok {A B} (f : A -> res B) (P : A -> B -> Prop) l : forall l', rmap f l = Ok l' -> (forall a b, In a l -> f a = Ok b -> P a b) -> Forall2 P l l'.
Proof.
  induction l as [|a l IH]; intros l' H HP; cbn [rmap] in H; [injection H as <-; constructor|]. destruct (f a) as [b| | |] eqn:E; cbn [rbind] in H; try discriminate.
  destruct (rmap f l) as [bs| | |]; cbn [rbind] in H; try discriminate. injection H as <-. constructor; [apply HP; [left; reflexivity|exact E]|]. apply IH; [reflexivity|]. intros x y Hx. apply HP. right. exact Hx.
Qed.

(** ** Linear combinations of multiples *)
Fixpoint mcomb (l : list mono) (i : nat) (w : vec) (g : pf) : pf :=
  match l with [] => pzero | u :: l' => fun x => w i * pmul u g x + mcomb l' (S i) w g x end.
Lemma mcomb_lin l : forall i a u v g x, mcomb l i (fun j => a * u j + v j) g x = a * mcomb l i u g x + mcomb l i v g x.
Proof. induction l as [|m l IH]; intros i a u v g x; cbn [mcomb]; [unfold pzero; ring|]. rewrite IH. ring. Qed.
Lemma mcomb_veq p l : forall i u v g x, veq p u v -> eqp p (mcomb l i u g x) (mcomb l i v g x).
Proof.
  induction l as [|m l IH]; intros i u v g x E; cbn [mcomb]; [exists 0; ring|]. destruct (E i) as (a & Ha). destruct (IH (S i) u v g x E) as (b & Hb).
  exists (a * pmul m g x + b). replace (u i * pmul m g x + mcomb l (S i) u g x - (v i * pmul m g x + mcomb l (S i) v g x)) with ((u i - v i) * pmul m g x + (mcomb l (S i) u g x - mcomb l (S i) v g x)) by ring. rewrite Ha, Hb. ring.
Qed.
Lemma mcomb_low l : forall i w g x, (forall j, (i <= j)%nat -> w j = 0) -> mcomb l i w g x = 0.
Proof. induction l as [|m l IH]; intros i w g x H; cbn [mcomb]; [reflexivity|]. rewrite H by lia. rewrite IH by (intros j Hj; apply H; lia). ring. Qed.
Lemma mcomb_unit l : forall i c g x m, nth_error l c = Some m -> mcomb l i (unitv (i + c)) g x = pmul m g x.
Proof.
  induction l as [|u l IH]; intros i c g x m H; [destruct c; discriminate|]. cbn [mcomb]. destruct c as [|c]; cbn [nth_error] in H.
  - injection H as ->. rewrite mcomb_low by (intros j Hj; unfold unitv; destruct (Nat.eqb_spec j (i + 0)); [lia|reflexivity]). unfold unitv. rewrite Nat.add_0_r, Nat.eqb_refl. ring.
  - replace (i + S c)%nat with (S i + c)%nat by lia. rewrite (IH (S i) c g x m H). unfold unitv at 1. destruct (Nat.eqb_spec i (S i + c)); [lia|]. ring.
Qed.
Lemma mcomb_zero l i g x : mcomb l i (fun _ => 0) g x = 0.
Proof. apply mcomb_low. reflexivity. Qed.
(** a kernel row, read as a polynomial *)
Lemma mcomb_row l (r : list (nat * Z)) (f : list (Z * mono)) g x : Forall2 (fun t s => snd t = fst s /\ nth_error l (fst t) = Some (snd s)) r f -> mcomb l 0 (rv r) g x = pprod f g x.
Proof.
  intros F. induction F as [|[c a] [b m] r f [F1 F2] F IH]; [apply mcomb_zero|]. cbn [fst snd] in *. subst b.
  transitivity (mcomb l 0 (fun j => a * unitv c j + rv r j) g x).
  - clear. generalize 0%nat as i. induction l as [|u l IH]; intros i; cbn [mcomb]; [reflexivity|]. rewrite IH. f_equal. f_equal. cbn [rv fst snd]. unfold unitv. destruct (Nat.eqb_spec c i) as [->|N]; [rewrite Nat.eqb_refl; ring|]. destruct (Nat.eqb_spec i c) as [->|_]; [lia|]. ring.
  - rewrite mcomb_lin, IH. pose proof (mcomb_unit l 0 c g x m F2) as K. cbn [Nat.add] in K. rewrite K. reflexivity.
Qed.

Section Ker.
Variable c : config.
Hypothesis CK : cfg_ok c.
Hypothesis CK31 : c_k c = K31.
Let o := c_o c.
Let p := c_p c.
Let Ho : o_ok o := ck_o c CK.
Let HP : prime p := ck_p c CK.
Let HK : in_class K31 p. Proof. rewrite <- CK31. exact (ck_k c CK). Qed.
Let Hp : 1 < p := cfg_p c CK.
Let nv := o_nv o.
Let lt := o_lt o.
Let MO : mono_order nv lt := o_lt_order o.
Let KK : kern_ok K31 p := class_kern K31 p HK.
Variables (els : list elt) (lmps : list nat).
Hypothesis HE : els_ok nv lt p els.
Hypothesis HL : forall i, In i lmps -> (i < length els)%nat.
Variable phi : list (Z * mono).
Hypothesis Hphi : in_vars nv phi.
Notation G := (pfs (map e_pol els)).
(** a row of sat: its polynomial is the multiple of phi modulo the ideal *)
Definition srow (r : mono * list (Z * mono)) : Prop := length (fst r) = nv /\ sorted_poly nv lt p (snd r) /\ ideal nv p G (fun u => cf (snd r) u - pmul (fst r) (cf phi) u).

Lemma keep_rows_in sat : forall qb r, In r (keep_rows sat qb) -> In r sat.
Proof.
  induction sat as [|a sat IH]; intros qb r H; cbn [keep_rows] in H; [exact H|]. destruct qb as [|m qb]; [destruct H as [<-|H]; [left; reflexivity|right; apply (IH []); exact H]|].
  destruct (mono_eqb (fst a) m); [destruct H as [<-|H]; [left; reflexivity|right; apply (IH qb); exact H]|right; apply (IH _ _ H)].
Qed.
Lemma keep_rows_fst sat : forall qb, map fst (firstn (length qb) (keep_rows sat qb)) = firstn (length (keep_rows sat qb)) qb.
Proof.
  induction sat as [|a sat IH]; intros qb; cbn [keep_rows]; [rewrite firstn_nil; destruct qb; reflexivity|]. destruct qb as [|m qb]; [cbn; reflexivity|].
  destruct (mono_eqb (fst a) m) eqn:E; [|apply (IH (m :: qb))]. apply mono_eqb_iff in E. cbn [length firstn map]. rewrite IH, E. reflexivity.
Qed.
Lemma new_row_ok kept m r : length m = nv -> (forall s, In s kept -> srow s) -> new_row kept m = Ok r -> srow r /\ fst r = m.
Proof.
  intros Hm HS H. unfold new_row in H. destruct (find _ (rev kept)) as [s|] eqn:E; cbn [of_opt rbind] in H; [|discriminate]. apply find_some in E as (Hs & Hd). apply in_rev in Hs.
  destruct (HS s Hs) as (S1 & S2 & S3). unfold mul_row in H. destruct (forallb _ _); cbn [when rbind] in H; [|discriminate]. injection H as <-. split; [|reflexivity]. cbn [fst snd].
  fold (mulp (mquo m (fst s)) (snd s)). assert (Lq : length (mquo m (fst s)) = nv) by (rewrite mquo_length; [exact Hm|transitivity nv; [exact Hm|symmetry; exact S1]]).
  assert (Ld : mdvd (fst s) m) by (apply mdvdb_iff; [transitivity nv; [exact S1|symmetry; exact Hm]|exact Hd]).
  split; [exact Hm|]. split; [apply mulp_sorted; assumption|]. eapply lspan_ext; [apply (ideal_mul nv p G (mquo m (fst s)) _ Lq S3)|].
  intros x Hx. rewrite pmul_sub. cbv beta. pose proof (cf_mulp nv (mquo m (fst s)) (snd s) x Lq (fun t Ht => proj2 (proj1 (proj2 S2) t Ht)) Hx) as CM. transitivity (pmul (mquo m (fst s)) (cf (snd s)) x - pmul m (cf phi) x); [f_equal; exact CM|]. f_equal. symmetry.
  transitivity (pmul (mmul (mquo m (fst s)) (fst s)) (cf phi) x); [apply (pmul_pmul nv); assumption|]. f_equal. rewrite mmul_comm by (transitivity nv; [exact Lq|symmetry; exact S1]). apply (mul_quo nv); assumption.
Qed.
Lemma update_mults_ok lms D sat old new : (0 < nv)%nat -> (forall m, In m lms -> length m = nv) -> (forall r, In r sat -> srow r) ->
  update_mults nv lms D sat = Ok (old, new) ->
  (forall r, In r (old ++ new) -> srow r) /\ NoDup (map fst (old ++ new)).
Proof.
  intros Hnv Hlm HS H. unfold update_mults in H. destruct (quotient_basis _ _ _) as [qb|] eqn:Eq; cbn [of_opt rbind] in H; [|discriminate].
  destruct (quotient_some nv _ Hnv Hlm D qb Eq) as (_ & Nd & Ln & _).
  destruct (rmap _ _) as [nw| | |] eqn:En; cbn [rbind] in H; try discriminate. injection H as <- <-.
  assert (HS' : forall s, In s (keep_rows sat qb) -> srow s) by (intros s Hs; apply HS; apply (keep_rows_in _ _ _ Hs)).
  assert (F : Forall2 (fun m r => srow r /\ fst r = m) (skipn (length (keep_rows sat qb)) qb) nw). { apply (rmap_ok _ _ _ _ En). intros m r Hm E. apply (new_row_ok (keep_rows sat qb)); auto. apply Ln. rewrite <- (firstn_skipn (length (keep_rows sat qb)) qb). apply in_or_app. right. exact Hm. }
  assert (M : map fst nw = skipn (length (keep_rows sat qb)) qb). { clear - F. induction F as [|m r l l' [_ E] F IH]; [reflexivity|]. cbn [map]. rewrite IH, E. reflexivity. }
  split.
  - intros r Hr. apply in_app_or in Hr as [Hr|Hr]; [apply HS'; rewrite <- (firstn_skipn (length qb) (keep_rows sat qb)); apply in_or_app; left; exact Hr|]. destruct (F2_in_r _ _ _ _ F Hr) as (m & _ & K & _). exact K.
  - rewrite map_app, M, keep_rows_fst, firstn_skipn. exact Nd.
Qed.

(** ** Kernel *)
Lemma ker_symb fuel rows sht' leads rr : (forall r, In r rows -> srow r) ->
  symb fuel els lmps [] 0 0 (sht_rows [] (map snd rows)) [] [] = Ok (sht', leads, rr) ->
  symb_post nv els lmps [] [] (sht_rows [] (map snd rows)) sht' [] leads rr.
Proof.
  intros HS H. set (sht := sht_rows [] (map snd rows)) in *.
  assert (ShtLen : forall m, In m sht -> length m = nv).
  { intros m Hm. apply sht_rows_in in Hm as [[]|(f & t & Hf & Ht & <-)]. apply in_map_iff in Hf as (r & <- & Hr). destruct (HS r Hr) as (_ & (_ & K & _) & _). apply (K t Ht). }
  assert (SI0 : SI nv els lmps [] 0 [] 0 sht [] []).
  { constructor.
    - apply sht_rows_nd. constructor.
    - exact ShtLen.
    - intros m [].
    - constructor.
    - intros m [].
    - constructor.
    - intros r [].
    - exists []. split; [reflexivity|]. intros x [].
    - intros j m Hj. lia. }
  destruct (closure_join nv els lmps sht) as (C & C1 & C2 & C3); [intros m Hm'; apply (closure_exists nv lt p MO); auto|].
  pose proof (symb_ok nv lt p MO els lmps HE HL [] 0 [] C C2 fuel 0 sht [] [] SI0 C1) as SO. rewrite H in SO. exact SO.
Qed.

Definition Rk (hcm hcmm : list mono) (v w : vec) : Prop := ideal nv p G (fun x => MatProofs.phi hcm v x - mcomb hcmm 0 w (cf phi) x).
Lemma Rk_lin hcm hcmm a u m v n : Rk hcm hcmm u m -> Rk hcm hcmm v n -> Rk hcm hcmm (fun j => a * u j + v j) (fun j => a * m j + n j).
Proof.
  intros H1 H2. eapply lspan_ext; [apply (ls_lin nv p _ a _ _ H1 H2)|]. intros x _. cbv beta. rewrite mcomb_lin. unfold MatProofs.phi. destruct (mem x hcm); ring.
Qed.
Lemma Rk_eq hcm hcmm u m v n : Rk hcm hcmm u m -> veq p u v -> veq p m n -> Rk hcm hcmm v n.
Proof.
  intros H1 E1 E2. eapply ls_eq; [exact H1|]. intros x _. cbv beta. pose proof (mcomb_veq p hcmm 0 m n (cf phi) x E2) as K. unfold MatProofs.phi. destruct (mem x hcm).
  - specialize (E1 (pos x hcm)). rewrite E1, K. reflexivity.
  - rewrite K. reflexivity.
Qed.
Lemma Rk_zero hcm hcmm : Rk hcm hcmm vzero (fun _ => 0).
Proof. apply lspan_zero. intros x _. rewrite mcomb_zero. unfold MatProofs.phi, vzero, pzero. destruct (mem x hcm); reflexivity. Qed.

Section Mat.
Variables (sht' leads : list mono) (rr : list (list (Z * mono))) (rows : list (mono * list (Z * mono))) (sht : list mono).
Hypothesis HS : forall r, In r rows -> srow r.
Hypothesis HD : NoDup (map fst rows).
Hypothesis HSP : symb_post nv els lmps [] [] sht sht' [] leads rr.
Hypothesis HT : forall r t, In r rows -> In t (snd r) -> In (snd t) sht.
Let L := fst (columns o sht' leads).
Let R := snd (columns o sht' leads).
Let hcm := L ++ R.
Let hcmm := msort o (map fst rows).
Definition live_ok (r : mono * list (nat * Z)) : Prop := length (fst r) = nv /\ snd r <> [] /\ canon p (snd r) /\ (forall t, In t (snd r) -> (length L <= fst t < length hcm)%nat) /\
  ideal nv p G (fun x => MatProofs.phi hcm (rv (snd r)) x - pmul (fst r) (cf phi) x).

Lemma hcm_nodup : NoDup hcm.
Proof. destruct HSP as (B1 & B2 & B3 & B4 & _ & B6 & B7 & B8 & _ & B10). exact (hcm_nd o sht' leads B1 B6). Qed.
Lemma hcmm_in m : In m hcmm <-> In m (map fst rows).
Proof. unfold hcmm. split; apply Permutation_in; [|symmetry]; apply msort_perm. Qed.
Lemma hcmm_len : length hcmm = length rows.
Proof. unfold hcmm. rewrite (Permutation_length (msort_perm o _)), map_length. reflexivity. Qed.
Lemma hcmm_nd : NoDup hcmm.
Proof. apply (Permutation_NoDup (Permutation_sym (msort_perm o _))). exact HD. Qed.
Lemma hcmm_vars m : In m hcmm -> length m = nv.
Proof. intros H. apply hcmm_in in H. apply in_map_iff in H as (r & <- & Hr). apply (HS r Hr). Qed.

Lemma unit_row m : In m hcmm -> forall x, mcomb hcmm 0 (rv [(pos m hcmm, 1)]) (cf phi) x = pmul m (cf phi) x.
Proof.
  intros H x. rewrite (mcomb_row hcmm [(pos m hcmm, 1)] [(1, m)]); [unfold pprod; cbn [fold_right fst snd]; ring|]. constructor; [|constructor]. split; [reflexivity|]. apply pos_nth. exact H.
Qed.
Lemma unit_rv i : veq p (unitv i) (rv [(i, 1)]).
Proof. intros j. unfold unitv. cbn [rv fst snd]. destruct (Nat.eqb_spec j i) as [->|N]; [rewrite Nat.eqb_refl; exists 0; ring|]. destruct (Nat.eqb_spec i j) as [->|_]; [lia|]. exists 0. ring. Qed.

Lemma kernel_la_ok ker live : kernel_la p hcm hcmm (length L) rr rows = Ok (ker, live) ->
  (forall k, In k ker -> kernel_row p (length rows) (Rk hcm hcmm) k) /\ (forall r, In r live -> live_ok r).
Proof.
  intros H. destruct HSP as (B1 & B2 & B3 & B4 & _ & B6 & B7 & B8 & _ & B10).
  assert (Hin : forall m, In m hcm <-> In m sht') by (intros m; apply (hcm_in o sht' leads B6)).
  pose proof (mat_ok o p Ho sht' leads els rr [] HE B1 B2 B4 B6 B7 B8 (fun r (K : In r []) => match K with end)) as (K1 & K2 & K3 & _).
  change (fst (columns o sht' leads)) with L in K1, K2, K3. change (snd (columns o sht' leads)) with R in K1, K2, K3. fold hcm in K1, K2, K3.
  unfold kernel_la in H. set (pivs := nth_error (rows_dec (map (to_row hcm) rr))) in *.
  assert (Psp : forall u, pset_of pivs u -> lspan nv p (multiple nv G) (MatProofs.phi hcm u)).
  { intros u (j & r & Ej & ->). unfold pivs in Ej. apply nth_error_In in Ej. apply (Permutation_in _ (sort_perm _ _)) in Ej. apply in_map_iff in Ej as (f & <- & Hf). destruct (B8 f Hf) as [(e & w & He & Lw & ->) Hm].
    eapply lspan_ext; [apply (ideal_mul nv p G w (cf (e_pol e)) Lw); apply ideal_gen; exists (e_pol e); split; [apply in_map; exact He|reflexivity]|]. intros m Lm0.
    transitivity (cf (mulp w (e_pol e)) m); [apply (phi_to_row o); [exact hcm_nodup|]; intros t Ht; apply Hin; apply Hm; exact Ht|]. apply (cf_mulp nv); [exact Lw| |exact Lm0]. intros t Ht. apply (mpoly_terms nv lt p (e_pol e)); [apply HE; exact He|exact Ht]. }
  destruct (rmap _ rows) as [nf| | |] eqn:En; cbn [rbind] in H; try discriminate.
  assert (F : Forall2 (fun r q => canon p q /\ (forall t, In t q -> (length L <= fst t < length hcm)%nat) /\ ideal nv p G (fun x => MatProofs.phi hcm (rv q) x - pmul (fst r) (cf phi) x)) rows nf).
  { apply (rmap_ok _ _ _ _ En). intros r q Hr E. destruct (HS r Hr) as (S1 & S2 & S3). assert (Hin' : forall t, In t (snd r) -> In (snd t) hcm) by (intros t Ht; apply Hin, B3, (HT r); assumption).
    destruct (upto_row_ok p KK pivs (length L) (length hcm) (to_row hcm (snd r)) K3) as (q' & E' & Q1 & Q2 & Q3).
    - unfold hcm. rewrite app_length. lia.
    - intros j Hj. apply K2. exact Hj.
    - pose proof (sp_nodup nv lt p MO (snd r) S2) as ND. clear - ND Hin'. induction (snd r) as [|t f IH]; [constructor|]. cbn [to_row map fst]. cbn [map] in ND. inversion ND; subst. constructor.
      + intros K. change (map _ (map _ f)) with (map fst (to_row hcm f)) in K. apply in_map_iff in K as ((q & x) & E & K). unfold to_row in K. apply in_map_iff in K as (s & E' & Hs). cbn in E. injection E' as E1 E2. apply H1. rewrite E in E1. apply pos_inj in E1; [|apply Hin'; right; exact Hs|apply Hin'; left; reflexivity]. rewrite <- E1. apply in_map. exact Hs.
      + apply IH; [intros s Hs; apply Hin'; right; exact Hs|assumption].
    - intros t Ht. unfold to_row in Ht. apply in_map_iff in Ht as (s & <- & Hs). cbn [snd]. destruct S2 as (_ & F2 & _). destruct (F2 s Hs). lia.
    - intros t Ht. unfold to_row in Ht. apply in_map_iff in Ht as (s & <- & Hs). cbn [fst]. apply pos_lt. auto.
    - rewrite E' in E. cbn [of_opt] in E. injection E as <-. split; [exact Q1|]. split; [exact Q2|].
      pose proof (phi_span o p hcm _ _ _ Psp Q3) as Id. eapply lspan_ext; [apply (lspan_sub _ _ _ _ _ S3 Id)|]. intros x _. cbv beta.
      assert (Ex : cf (snd r) x = MatProofs.phi hcm (rv (to_row hcm (snd r))) x) by (symmetry; apply (phi_to_row o); [exact hcm_nodup|exact Hin']). rewrite Ex. unfold MatProofs.phi. destruct (mem x hcm); ring. }
  set (all := combine (map fst rows) nf) in *.
  assert (HA : forall m q, In (m, q) all -> In m hcmm /\ canon p q /\ (forall t, In t q -> (length L <= fst t < length hcm)%nat) /\ ideal nv p G (fun x => MatProofs.phi hcm (rv q) x - pmul m (cf phi) x)).
  { intros m q Hq. assert (Hm : In m hcmm) by (apply hcmm_in; apply (in_combine_l _ _ _ _ Hq)). split; [exact Hm|]. unfold all in Hq. clear - F Hq. induction F as [|r q0 l l' F1 F IH]; [destruct Hq|]. cbn [map combine] in Hq. destruct Hq as [E|Hq]; [injection E as <- <-; exact F1|apply IH; exact Hq]. }
  set (idx := combine (seq 0 (length all)) all) in *. set (liv := filter _ idx) in *.
  assert (Hliv : forall i m q, In (i, (m, q)) liv -> In (m, q) all /\ q <> []).
  { intros i m q Hi. unfold liv in Hi. apply filter_In in Hi as (Hi & Hq). apply in_combine_r in Hi. split; [exact Hi|]. cbn in Hq. destruct q; [discriminate|discriminate]. }
  destruct (sat_rows _ _ _ _ _) as [k2| | |] eqn:E2; cbn [rbind] in H; try discriminate. injection H as <- <-. split.
  - intros k Hk. apply in_app_or in Hk as [Hk|Hk].
    + apply in_map_iff in Hk as ((m & q) & <- & Hq). apply filter_In in Hq as (Hq & Eq). cbn [snd] in Eq. destruct q as [|? ?]; [|discriminate]. cbn [fst]. destruct (HA m [] Hq) as (Hm & _ & _ & Id).
      split; [discriminate|]. split; [split; [repeat constructor|intros t [<-|[]]; cbn; lia]|]. split; [intros t [<-|[]]; cbn [fst]; rewrite <- hcmm_len; apply pos_lt; exact Hm|].
      unfold Rk. eapply lspan_ext; [exact Id|]. intros x _. rewrite unit_row by exact Hm. unfold MatProofs.phi. destruct (mem x hcm); reflexivity.
    + revert k Hk. eapply (sat_rows_ok p HP KK (length hcm) (length rows) (Rk hcm hcmm)); [apply Rk_lin|apply Rk_eq|apply Rk_zero| | |exact E2].
      * intros j r rm K. discriminate.
      * intros mi ps r K. apply (Permutation_in _ (sort_perm _ _)) in K. apply in_map_iff in K as ((i & (m & q)) & E & Hi). cbn [fst snd] in E. injection E as <- <- <-. destruct (Hliv i m q Hi) as (Ha & Nq). destruct (HA m q Ha) as (Hm & Q1 & Q2 & Q3).
        split; [exact Q1|]. split; [intros t Ht; apply Q2; exact Ht|]. split; [rewrite <- hcmm_len; apply pos_lt; exact Hm|]. eapply Rk_eq; [|intros j; reflexivity|intros j; symmetry; apply unit_rv].
        unfold Rk. eapply lspan_ext; [exact Q3|]. intros x _. rewrite unit_row by exact Hm. reflexivity.
  - intros r Hr. apply in_map_iff in Hr as ((i & (m & q)) & <- & Hi). destruct (Hliv i m q Hi) as (Ha & Nq). destruct (HA m q Ha) as (Hm & Q1 & Q2 & Q3). split; [apply hcmm_vars; exact Hm|]. split; [exact Nq|]. split; [exact Q1|]. split; [exact Q2|exact Q3].
Qed.

(** ** Reading back *)
Lemma live_read m q f : live_ok (m, q) -> of_row hcm q = Ok f -> srow (m, f).
Proof.
  intros (L1 & L2 & L3 & L4 & L5) E. cbn [fst snd] in *. destruct HSP as (B1 & B2 & B3 & B4 & _ & B6 & _).
  destruct (of_row_ok o hcm q) as (h & Eh & Fh); [intros t Ht; apply L4; exact Ht|]. rewrite E in Eh. injection Eh as <-. split; [exact L1|]. cbn [fst snd]. split.
  - destruct (row_sorted nv lt p L R q f) as [->|K]; [exact (R_dec o Ho sht' leads B1 B2)|exact (R_len o sht' leads B2)|exact L3|intros t Ht; apply L4; exact Ht|exact Fh| |exact K]. inversion Fh; subst. congruence.
  - eapply lspan_ext; [exact L5|]. intros x _. cbv beta. f_equal. symmetry. apply (phi_of_row o hcm hcm_nodup q f x Fh).
Qed.
Lemma hcmm_dec : decreasing o hcmm.
Proof. apply (msort_dec o Ho); [exact HD|]. intros m Hm. apply hcmm_vars. apply hcmm_in. exact Hm. Qed.
Lemma ker_span (tr : list (list (nat * Z))) v : (forall k, In k tr -> kernel_row p (length rows) (Rk hcm hcmm) k) -> span p (gens (fun _ => None) tr) v -> Rk hcm hcmm vzero v.
Proof.
  intros H Hv. induction Hv as [v [(j & r & E & _)|(r & Hr & ->)]| |a u v _ IH1 _ IH2|u v _ IH E]; [discriminate|apply (H r Hr)|apply Rk_zero| |].
  - eapply Rk_eq; [apply (Rk_lin hcm hcmm a _ _ _ _ IH1 IH2)| |intros j; reflexivity]. intros j. unfold vzero. exists 0. ring.
  - eapply Rk_eq; [exact IH|intros j; reflexivity|exact E].
Qed.
Lemma kernel_news (tr : list (list (nat * Z))) evs l news : 2 ^ 15 <= p -> Z.of_nat (length tr) < 2 ^ 31 -> random evs -> (forall k, In k tr -> kernel_row p (length rows) (Rk hcm hcmm) k) ->
  prob_echelon K31 p 0 (length rows) (fun _ => None) tr evs = Some l -> rmap (of_row hcmm) (rev l) = Ok news ->
  forall f, In f news -> mpoly nv lt p f /\ ideal nv p G (pprod phi (cf f)).
Proof.
  intros H15 Hlen Hr HKR E1 E2. destruct (C67_sound K31 p 0 (length rows) (fun _ => None) tr evs l) as (_ & K & _); [|exact Hr|exact E1|].
  { split; [exact HP|]. split; [exact HK|]. split; [exact H15|]. split; [left; reflexivity|]. split; [|exact Hlen]. split; [lia|]. split; [intros j; split; [lia|congruence]|]. split; [intros j r K; discriminate|].
    intros r Hr0. destruct (HKR r Hr0) as (N1 & N2 & N3 & _). split; [apply (canon_nodup p); exact N2|]. split; [apply (canon_cfs p); exact N2|]. split; [exact N3|]. destruct r as [|t0 r]; [congruence|]. exists t0, r. split; [reflexivity|]. destruct N2 as (N2 & _). cbn [map] in N2. inversion N2 as [|? ? A1 A2]; subst. rewrite Forall_forall in A2. intros t [<-|Ht]; [lia|]. apply Nat.lt_le_incl, A2, in_map. exact Ht. }
  assert (F : Forall2 (fun r f => of_row hcmm r = Ok f) (rev l) news) by (apply (rmap_ok _ _ _ _ E2); auto).
  intros f Hf. destruct (F2_in_r _ _ _ _ F Hf) as (r & Hr0 & E). apply in_rev in Hr0. destruct (K r Hr0) as (K1 & K2 & j & _ & K3 & _). pose proof K3 as K4. destruct K4 as (_ & _ & K4 & _).
  destruct (of_row_ok o hcmm r) as (h & Eh & Fh); [intros t Ht; rewrite hcmm_len; apply K4; exact Ht|]. rewrite E in Eh. injection Eh as <-. rewrite <- hcmm_len in K3.
  destruct (row_poly c hcmm r f j hcmm_nd hcmm_vars hcmm_dec K2 K3 Fh) as (M1 & _ & _). split; [exact M1|].
  pose proof (ker_span tr _ HKR K1) as Id. unfold Rk in Id. eapply lspan_ext; [apply (lspan_scale nv p _ (-1) _ Id)|]. intros x Hx. cbv beta. rewrite (mcomb_row hcmm r f (cf phi) x Fh).
  transitivity (pprod f (cf phi) x); [apply (pprod_comm nv); [exact Hphi|intros t Ht; apply (mpoly_terms nv lt p f t M1 Ht)|exact Hx]|]. unfold MatProofs.phi, vzero. destruct (mem x hcm); ring.
Qed.
End Mat.
End Ker.
