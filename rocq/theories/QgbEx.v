(** C71: a concrete system, its reduced Groebner basis over the rationals, good primes and a lifting. *)
From Coq Require Import ZArith NArith Arith List Bool Lia Sorted Znumtheory.
From Verif Require Import GliftSpec GliftModel GliftProofs GliftRun GliftProps.
From Verif Require Import LinSpec MonoSpec MonoModel MonoSpecProofs MonoCmpProofs GbSpec GbProofs GbIdeal SelProofs UpdProps LaModel LaProps F4Model F4Rows RoundProofs F4Props TraceModel TraceProps ElimProps QgbSpec QgbProofs QgbExist QgbProps.
Import ListNotations.
Open Scope Z_scope.
Notation poly := (list (Z * mono)) (only parsing).

(** * Certificates *)
Definition nullb (l : poly) : bool := forallb (fun t => cf l (snd t) =? 0) l.
Lemma nullb_ok l m : nullb l = true -> cf l m = 0.
Proof. intros H. destruct (Z.eq_dec (cf l m) 0) as [E|E]; [exact E|]. destruct (cf_nz l m E) as (t & Ht & <-). unfold nullb in H. rewrite forallb_forall in H. apply Z.eqb_eq. apply H. exact Ht. Qed.
Definition scale (a : Z) (f : poly) : poly := map (fun t => (a * fst t, snd t)) f.
(** the combination of the multiples of elements of a list, given by a list of factors, monomials and indices *)
Definition combo (G : list poly) (cert : list (Z * mono * nat)) : poly := flat_map (fun c => scale (fst (fst c)) (shift (snd (fst c)) (nth (snd c) G []))) cert.
Lemma combo_span nv G (S : pf -> Prop) cert : (forall c, In c cert -> length (snd (fst c)) = nv /\ S (pmul (snd (fst c)) (cf (nth (snd c) G [])))) -> (forall g, In g G -> lens nv g) -> (forall c, In c cert -> (snd c < length G)%nat) -> lspan nv 0 S (cf (combo G cert)).
Proof.
  intros H1 H2 H3. induction cert as [|c cert IH]; [apply lspan_zero; intros m _; reflexivity|]. cbn [combo flat_map]. destruct (H1 c (or_introl eq_refl)) as [L HS].
  eapply lspan_ext; [apply (ls_lin nv 0 S (fst (fst c))); [apply ls_in; exact HS|apply IH; intros x Hx; [apply H1|apply H3]; right; exact Hx]|]. intros m Lm. unfold scale. rewrite cf_app, cf_scale. rewrite (cf_shift nv) by (try assumption; apply H2; apply nth_In; apply H3; left; reflexivity). reflexivity.
Qed.
Lemma move a b : a + -1 * b = 0 -> a = b. Proof. lia. Qed.
Definition cert_ideal (nv : nat) (G : list poly) (f : poly) (cert : list (Z * mono * nat)) : bool :=
  nullb (f ++ scale (-1) (combo G cert)) && forallb (fun c => (length (snd (fst c)) =? nv)%nat && (snd c <? length G)%nat) cert.
Lemma cert_ideal_ok nv G f cert : (forall g, In g G -> lens nv g) -> cert_ideal nv G f cert = true -> qideal nv (pfs G) (cf f).
Proof.
  intros HG H. apply andb_prop in H as [H1 H2]. rewrite forallb_forall in H2. apply qideal_of. unfold ideal. eapply lspan_ext; [apply (combo_span nv G _ cert); [|exact HG|]|].
  - intros c Hc. specialize (H2 c Hc). apply andb_prop in H2 as [A B]. apply Nat.eqb_eq in A. apply Nat.ltb_lt in B. split; [exact A|]. exists (snd (fst c)), (cf (nth (snd c) G [])). split; [exact A|]. split; [|reflexivity]. exists (nth (snd c) G []). split; [apply nth_In; exact B|reflexivity].
  - intros c Hc. specialize (H2 c Hc). apply andb_prop in H2 as [_ B]. apply Nat.ltb_lt in B. exact B.
  - intros m _. pose proof (nullb_ok _ m H1) as K. unfold scale in K. rewrite cf_app, cf_scale in K. apply move. exact K.
Qed.
Definition zspoll (t : mono) (g h : poly) : poly := scale (lcoef h) (shift (mquo t (lead g)) g) ++ scale (- lcoef g) (shift (mquo t (lead h)) h).
Definition cert_pair (o : ordering) (G : list poly) (g h : poly) (cert : list (Z * mono * nat)) : bool :=
  let t := mlcm (lead g) (lead h) in
  nullb (zspoll t g h ++ scale (-1) (combo G cert)) && forallb (fun c => (length (snd (fst c)) =? o_nv o)%nat && (snd c <? length G)%nat && (0 <? mcmp o t (mmul (snd (fst c)) (lead (nth (snd c) G []))))) cert.
Lemma cert_pair_ok o G g h cert : o_ok o -> Forall (zsorted (o_nv o) (o_lt o)) G -> In g G -> In h G -> cert_pair o G g h cert = true -> zpair (o_nv o) (o_lt o) G g h.
Proof.
  intros OK HG Hg Hh H. unfold cert_pair in H. cbv zeta in H. apply andb_prop in H as [H1 H2]. rewrite forallb_forall in H2. rewrite Forall_forall in HG. destruct (z_len _ _ g (HG g Hg)) as (Lg & _ & LEg). destruct (z_len _ _ h (HG h Hh)) as (Lh & _ & LEh). exists 1. split; [lia|]. set (t := mlcm (lead g) (lead h)) in *. assert (Lt : length t = o_nv o) by (unfold t; rewrite mlcm_length; lia).
  eapply lspan_ext; [apply (combo_span (o_nv o) G _ cert)|].
  - intros c Hc. specialize (H2 c Hc). apply andb_prop in H2 as [A C]. apply andb_prop in A as [A B]. apply Nat.eqb_eq in A. apply Nat.ltb_lt in B. apply Z.ltb_lt in C. split; [exact A|]. exists (snd (fst c)), (nth (snd c) G []). assert (IG : In (nth (snd c) G []) G) by (apply nth_In; exact B). split; [exact IG|]. split; [exact A|]. split; [|reflexivity].
    destruct (z_len _ _ _ (HG _ IG)) as (Lx & _). destruct (mcmp_spec o t (mmul (snd (fst c)) (lead (nth (snd c) G []))) OK Lt) as (_ & _ & Q); [rewrite mmul_length; lia|]. apply Q. exact C.
  - intros x Hx. apply (z_len _ _ x (HG x Hx)).
  - intros c Hc. specialize (H2 c Hc). apply andb_prop in H2 as [A C]. apply andb_prop in A as [A B]. apply Nat.ltb_lt in B. exact B.
  - intros m Lm. pose proof (nullb_ok _ m H1) as K. unfold zspoll, scale in K. rewrite !cf_app, !cf_scale in K. rewrite !(cf_shift (o_nv o)) in K by (try assumption; rewrite mquo_length; lia). cbn beta. unfold zspol. fold t. apply move. etransitivity; [|exact K]. ring.
Qed.
Fixpoint zsortedb (o : ordering) (f : poly) : bool :=
  match f with
  | [] => true
  | t :: f' => negb (fst t =? 0) && (length (snd t) =? o_nv o)%nat && forallb (fun s => 0 <? mcmp o (snd t) (snd s)) f' && zsortedb o f'
  end.
Lemma zsortedb_ok o f : o_ok o -> f <> [] -> zsortedb o f = true -> zsorted (o_nv o) (o_lt o) f.
Proof.
  intros Ho Hne H. assert (K : f = [] \/ zsorted (o_nv o) (o_lt o) f); [|destruct K; [contradiction|assumption]]. clear Hne. induction f as [|t f IH]; [left; reflexivity|]. right.
  cbn [zsortedb] in H. apply andb_prop in H as [H H5]. apply andb_prop in H as [H H4]. apply andb_prop in H as [H1 H3]. apply negb_true_iff, Z.eqb_neq in H1. apply Nat.eqb_eq in H3. specialize (IH H5).
  assert (HS : forall s, In s f -> fst s <> 0 /\ length (snd s) = o_nv o) by (destruct IH as [->|(_ & IH & _)]; [intros s []|exact IH]).
  split; [discriminate|]. split; [intros s [<-|Hs]; auto|]. intros [|i] [|j] s u Hi Hj Hij; try lia; cbn [nth_error] in Hi, Hj.
  - injection Hi as <-. pose proof (nth_error_In _ _ Hj) as Hu. rewrite forallb_forall in H4. specialize (H4 u Hu). apply Z.ltb_lt in H4. destruct (mcmp_spec o (snd t) (snd u) Ho H3 (proj2 (HS u Hu))) as (_ & _ & A). apply A. exact H4.
  - destruct IH as [->|(_ & _ & IH)]; [destruct i; discriminate|]. apply (IH i j); auto. lia.
Qed.

(** * 2 x^2 - y, 3 x y - 1 *)
Definition qF : list poly := [[(2, [2; 0]%N); (-1, [0; 1]%N)]; [(3, [1; 1]%N); (-1, [0; 0]%N)]].
Definition qG : list poly := [[(3, [0; 2]%N); (-2, [1; 0]%N)]; [(3, [1; 1]%N); (-1, [0; 0]%N)]; [(2, [2; 0]%N); (-1, [0; 1]%N)]].
Lemma qF_sorted : Forall (zsorted 2 (o_lt ord2)) qF.
Proof. repeat (constructor; [apply (zsortedb_ok ord2); [apply ord2_ok|discriminate|reflexivity]|]). constructor. Qed.
Lemma qG_sorted : Forall (zsorted 2 (o_lt ord2)) qG.
Proof. repeat (constructor; [apply (zsortedb_ok ord2); [apply ord2_ok|discriminate|reflexivity]|]). constructor. Qed.
Definition one2 : mono := [0; 0]%N.
Example C71_basis_ex : qbasis 2 (o_lt ord2) qF qG.
Proof.
  pose proof qF_sorted as SF. pose proof qG_sorted as SG. assert (LF : forall g, In g qF -> lens 2 g) by (rewrite Forall_forall in SF; intros g Hg; apply (z_len _ _ g (SF g Hg))). assert (LG : forall g, In g qG -> lens 2 g) by (rewrite Forall_forall in SG; intros g Hg; apply (z_len _ _ g (SG g Hg))).
  split; [exact SG|]. split; [|split; [|split]].
  - intros f. split; apply qideal_sub.
    + intros g [<-|[<-|[]]]; [apply (cert_ideal_ok 2 qG _ [(1, one2, 2%nat)])|apply (cert_ideal_ok 2 qG _ [(1, one2, 1%nat)])]; try exact LG; reflexivity.
    + intros g [<-|[<-|[<-|[]]]]; [apply (cert_ideal_ok 2 qF _ [(-3, [0; 1]%N, 0%nat); (2, [1; 0]%N, 1%nat)])|apply (cert_ideal_ok 2 qF _ [(1, one2, 1%nat)])|apply (cert_ideal_ok 2 qF _ [(1, one2, 0%nat)])]; try exact LF; reflexivity.
  - apply (q_buchberger 2 (o_lt ord2) (o_lt_order ord2) qG SG). intros g h Hg Hh.
    destruct Hg as [<-|[<-|[<-|[]]]]; destruct Hh as [<-|[<-|[<-|[]]]].
    + apply (cert_pair_ok ord2 qG _ _ []); [apply ord2_ok|exact SG|cbn; tauto|cbn; tauto|reflexivity].
    + apply (cert_pair_ok ord2 qG _ _ [(-3, one2, 2%nat)]); [apply ord2_ok|exact SG|cbn; tauto|cbn; tauto|vm_compute; reflexivity].
    + apply (cert_pair_ok ord2 qG _ _ [(-2, [1; 0]%N, 2%nat); (1, [0; 1]%N, 0%nat)]); [apply ord2_ok|exact SG|cbn; tauto|cbn; tauto|vm_compute; reflexivity].
    + apply (cert_pair_ok ord2 qG _ _ [(3, one2, 2%nat)]); [apply ord2_ok|exact SG|cbn; tauto|cbn; tauto|vm_compute; reflexivity].
    + apply (cert_pair_ok ord2 qG _ _ []); [apply ord2_ok|exact SG|cbn; tauto|cbn; tauto|reflexivity].
    + apply (cert_pair_ok ord2 qG _ _ [(1, one2, 0%nat)]); [apply ord2_ok|exact SG|cbn; tauto|cbn; tauto|vm_compute; reflexivity].
    + apply (cert_pair_ok ord2 qG _ _ [(2, [1; 0]%N, 2%nat); (-1, [0; 1]%N, 0%nat)]); [apply ord2_ok|exact SG|cbn; tauto|cbn; tauto|vm_compute; reflexivity].
    + apply (cert_pair_ok ord2 qG _ _ [(-1, one2, 0%nat)]); [apply ord2_ok|exact SG|cbn; tauto|cbn; tauto|vm_compute; reflexivity].
    + apply (cert_pair_ok ord2 qG _ _ []); [apply ord2_ok|exact SG|cbn; tauto|cbn; tauto|reflexivity].
  - intros i j f g t Hi Hj Hij Ht D. destruct i as [|[|[|i]]]; cbn in Hi; try (destruct i; discriminate); injection Hi as <-; (destruct j as [|[|[|j]]]; cbn in Hj; try (destruct j; discriminate); injection Hj as <-; try (elim Hij; reflexivity)); destruct Ht as [<-|[<-|[]]]; apply mdvdb_iff in D; try reflexivity; vm_compute in D; discriminate.
  - assert (Q : forall a b : poly, length (lead a) = 2%nat -> length (lead b) = 2%nat -> 0 < mcmp ord2 (lead b) (lead a) -> o_lt ord2 (lead a) (lead b)) by (intros a b La Lb H; destruct (mcmp_spec ord2 (lead b) (lead a) ord2_ok Lb La) as (_ & _ & A); apply A; exact H).
    repeat (constructor; [repeat (constructor; [apply Q; try reflexivity; vm_compute; reflexivity|]); constructor|]). constructor.
Qed.

(** A prime modulo which F4 has returned the image of the basis is good. *)
Lemma lucky_of_run o F G c fuel Fp out : cfg_ok c -> c_o c = o -> (forall f, In f F -> ~ (c_p c | lcoef f)) -> Forall2 (QgbSpec.image (o_nv o) (o_lt o) (c_p c)) F Fp -> core_f4 c true fuel Fp = Ok out -> Forall2 (monic_image (o_nv o) (o_lt o) (c_p c)) G out ->
  lucky (o_nv o) (o_lt o) F G (c_p c).
Proof.
  intros CK <- NZ IF E IM. pose proof (o_lt_order (c_o c)) as MO. split; [exact NZ|]. intros Fp' IF'. exists out. split; [exact IM|].
  assert (EF : Fp' = Fp). { clear -IF IF' MO CK. pose proof (cfg_p c CK) as Hp. revert Fp' IF'. induction IF as [|x y l l' H F IH]; intros Fp' IF'; inversion IF' as [|? z ? m' H' F']; subst; [reflexivity|]. f_equal; [|apply IH; assumption]. destruct H as [S1 P1]. destruct H' as [S2 P2]. apply (sorted_poly_eq (o_nv (c_o c)) (o_lt (c_o c)) (c_p c)); auto. intros m Lm. rewrite <- (P2 m Lm). apply P1. exact Lm. }
  subst Fp'. assert (SF : Forall (sorted_poly (o_nv (c_o c)) (o_lt (c_o c)) (c_p c)) Fp). { clear -IF. induction IF as [|x y l l' H F IH]; constructor; [apply H|assumption]. }
  destruct (C23_sound c true fuel Fp out CK SF E) as (B1 & B2 & _ & B4 & B5). destruct (B5 eq_refl) as [B6 B7]. auto.
Qed.
Definition modb (p : Z) (l : poly) : bool := forallb (fun t => cf l (snd t) mod p =? 0) l.
Lemma modb_ok p l m : p <> 0 -> modb p l = true -> (p | cf l m).
Proof. intros Hp H. destruct (Z.eq_dec (cf l m) 0) as [E|E]; [rewrite E; apply Z.divide_0_r|]. destruct (cf_nz l m E) as (t & Ht & <-). unfold modb in H. rewrite forallb_forall in H. specialize (H t Ht). apply Z.eqb_eq in H. apply Z.mod_divide; assumption. Qed.
Definition imageb (o : ordering) (p : Z) (g f : poly) : bool := sortedb o p f && modb p (g ++ scale (-1) f).
Lemma imageb_ok o p g f : o_ok o -> 1 < p -> f <> [] -> imageb o p g f = true -> QgbSpec.image (o_nv o) (o_lt o) p g f.
Proof.
  intros OK Hp Nf H. apply andb_prop in H as [H1 H2]. split; [apply sortedb_ok; assumption|]. intros m _. assert (P0 : p <> 0) by lia. pose proof (modb_ok p _ m P0 H2) as D. unfold scale in D. rewrite cf_app, cf_scale in D. unfold eqp. destruct D as [z D]. exists z. rewrite <- D. ring.
Qed.
Definition monicb (o : ordering) (p : Z) (g f : poly) : bool := sortedb o p f && (match f with t :: _ => (fst t =? 1) && (if mono_dec (snd t) (lead g) then true else false) | [] => false end) && modb p (scale (lcoef g) f ++ scale (-1) g).
Lemma monicb_ok o p g f : o_ok o -> 1 < p -> monicb o p g f = true -> monic_image (o_nv o) (o_lt o) p g f.
Proof.
  intros OK Hp H. apply andb_prop in H as [H H2]. apply andb_prop in H as [H1 H3]. destruct f as [|[a m0] f]; [discriminate|]. apply andb_prop in H3 as [H3 H4]. cbn [fst snd] in H3, H4. apply Z.eqb_eq in H3. destruct (mono_dec m0 (lead g)) as [->|]; [|discriminate]. subst a.
  split; [apply sortedb_ok; try assumption; discriminate|]. split; [eauto|]. intros m _. assert (P0 : p <> 0) by lia. pose proof (modb_ok p _ m P0 H2) as D. unfold scale in D. rewrite cf_app, !cf_scale in D. unfold eqp. destruct D as [z D]. exists z. rewrite <- D. ring.
Qed.
Definition qcfg (p : Z) : config := std_config ord2 K31 p 2.
Definition qin (p : Z) : list poly := map (imgl p 1) qF.
Definition qout (p : Z) : list poly := match core_f4 (qcfg p) true 20 (qin p) with Ok out => out | _ => [] end.
Definition qprimes : list Z := [101; 103; 107; 109; 113; 127].
Lemma qcfg_ok p : In p qprimes -> cfg_ok (qcfg p).
Proof. intros H. cbn in H. apply std_config_ok; [apply ord2_ok| |unfold in_class; lia|lia]. repeat (destruct H as [<-|H]; [apply small_prime; [lia|vm_compute; reflexivity]|]). contradiction. Qed.
Lemma qimages p : In p qprimes -> Forall2 (QgbSpec.image 2 (o_lt ord2) p) qF (qin p).
Proof. intros H. cbn in H. repeat (destruct H as [<-|H]; [repeat (constructor; [apply (imageb_ok ord2); [apply ord2_ok|lia|discriminate|vm_compute; reflexivity]|]); constructor|]). contradiction. Qed.
Lemma qmonic p : In p qprimes -> Forall2 (monic_image 2 (o_lt ord2) p) qG (qout p).
Proof.
  intros H. assert (H3 : length (qout p) = 3%nat /\ forall k, (k < 3)%nat -> monicb ord2 p (nth k qG []) (nth k (qout p) []) = true).
  { split; [|intros [|[|[|k]]] Hk; try lia]; cbn in H; repeat (destruct H as [<-|H]; [vm_compute; reflexivity|]); contradiction. }
  assert (Hp : 1 < p) by (cbn in H; lia). destruct H3 as [L K]. destruct (qout p) as [|a [|b [|c [|d r]]]]; try discriminate L.
  constructor; [apply (monicb_ok ord2 p); [apply ord2_ok|exact Hp|apply (K 0%nat); lia]|]. constructor; [apply (monicb_ok ord2 p); [apply ord2_ok|exact Hp|apply (K 1%nat); lia]|]. constructor; [apply (monicb_ok ord2 p); [apply ord2_ok|exact Hp|apply (K 2%nat); lia]|]. constructor.
Qed.
Lemma qrun p : In p qprimes -> core_f4 (qcfg p) true 20 (qin p) = Ok (qout p).
Proof. intros H. cbn in H. repeat (destruct H as [<-|H]; [vm_compute; reflexivity|]). contradiction. Qed.
Example C71_lucky_ex p : In p qprimes -> prime p /\ lucky 2 (o_lt ord2) qF qG p.
Proof.
  intros H. split; [apply (ck_p (qcfg p) (qcfg_ok p H))|]. apply (lucky_of_run ord2 qF qG (qcfg p) 20 (qin p) (qout p)); [apply qcfg_ok; exact H|reflexivity| |apply qimages; exact H|apply qrun; exact H|apply qmonic; exact H].
  intros f Hf D. apply Z.mod_divide in D; [|cbn in H; cbn; lia]. cbn [c_p qcfg std_config] in D. cbn in H, Hf. destruct Hf as [<-|[<-|[]]]; repeat (destruct H as [<-|H]; [vm_compute in D; discriminate|]); contradiction.
Qed.
(** the exceptions exist: modulo 2 the leading monomial of the first polynomial changes *)
Example C71_unlucky_ex : ~ lucky 2 (o_lt ord2) qF qG 2.
Proof. intros [H _]. apply (H _ (or_introl eq_refl)). exists 1. reflexivity. Qed.
Example C71_trace_ex : exists T, learn_f4 (qcfg 101) 20 (qin 101) = Ok (qout 101, T) /\ apply_f4 (qcfg 103) 20 T (qin 103) = Ok (Some (qout 103)).
Proof.
  assert (H : match learn_f4 (qcfg 101) 20 (qin 101) with Ok (o1, T) => o1 = qout 101 /\ apply_f4 (qcfg 103) 20 T (qin 103) = Ok (Some (qout 103)) | _ => False end) by (vm_compute; split; reflexivity).
  destruct (learn_f4 (qcfg 101) 20 (qin 101)) as [[o1 T]| | |]; try contradiction. destruct H as [-> H]. exists T. split; [reflexivity|exact H].
Qed.
Definition qmb : list mono := [[0; 0]; [0; 1]; [1; 0]]%N.
Definition qcs (p : Z) : list (list Z) := map (fun f => map (cf f) qmb) (qout p).
Definition qins : list input := map (fun p => ex_in p (qcs p)) [103; 107; 109; 113; 127].
(** the lifting of these images gives the basis: numerators 0, 0, -2 over 3 and so on *)
Example C71_lift_ex : images_ok 101 (qcs 101) qins /\ (exists s, lift_all qins (init_lift 101 (qcs 101)) = Some (s, true) /\ map (fun g => (g_lm g, g_qq g)) (l_pols s) = [(3, [(0, 1); (0, 1); (-2, 1)]); (3, [(-1, 1); (0, 1); (0, 1)]); (2, [(0, 1); (-1, 1); (0, 1)])]) /\
  forall im, In im (goods qins) -> lucky 2 (o_lt ord2) qF qG (fst im) /\ exists c fuel Fp out, cfg_ok c /\ c_o c = ord2 /\ c_p c = fst im /\ Forall2 (QgbSpec.image 2 (o_lt ord2) (fst im)) qF Fp /\ core_f4 c true fuel Fp = Ok out /\ dense qmb [3; 3; 3]%nat out (snd im).
Proof.
  split; [|split].
  - let v := eval vm_compute in (qcs 101) in replace (qcs 101) with v by (vm_compute; reflexivity). let v := eval vm_compute in qins in replace qins with v by (vm_compute; reflexivity). split; [discriminate|]. split; [intros c Hc; cbn in Hc; repeat (destruct Hc as [<-|Hc]); try contradiction; discriminate|]. split; [rng|]. split.
    + intros im Him. cbn in Him. repeat (destruct Him as [<-|Him]; [split; [split; [reflexivity|intros [|[|[|[|k]]]]; reflexivity]|rng]|]). contradiction.
    + split; [cbn; repeat constructor; cbn; intuition discriminate|]. intros p Hp. cbn in Hp. repeat (destruct Hp as [<-|Hp]; [split; [apply small_prime; [lia|reflexivity]|lia]|]). contradiction.
  - assert (H : match lift_all qins (init_lift 101 (qcs 101)) with Some (s, b) => b = true /\ map (fun g => (g_lm g, g_qq g)) (l_pols s) = [(3, [(0, 1); (0, 1); (-2, 1)]); (3, [(-1, 1); (0, 1); (0, 1)]); (2, [(0, 1); (-1, 1); (0, 1)])] | None => False end) by (vm_compute; split; reflexivity).
    destruct (lift_all qins (init_lift 101 (qcs 101))) as [[s b]|]; [|contradiction]. destruct H as [-> H]. exists s. split; [reflexivity|exact H].
  - intros im Him. assert (Q : exists p, In p qprimes /\ im = (p, qcs p)). { assert (EG : forall l, goods (map (fun p => ex_in p (qcs p)) l) = map (fun p => (p, qcs p)) l) by (clear; intros l; induction l as [|p l IH]; [reflexivity|]; cbn [map goods i_img i_prime ex_in]; rewrite IH; reflexivity). unfold qins in Him. rewrite EG in Him. apply in_map_iff in Him as (p & <- & Hp). exists p. split; [right; exact Hp|reflexivity]. }
    destruct Q as (p & Hp & ->). cbn [fst snd]. split; [apply C71_lucky_ex; exact Hp|]. exists (qcfg p), 20%nat, (qin p), (qout p). split; [apply qcfg_ok; exact Hp|]. split; [reflexivity|]. split; [reflexivity|]. split; [apply qimages; exact Hp|]. split; [apply qrun; exact Hp|].
    split; [unfold qcs; apply map_length|]. intros k f Hk. assert (K3 : (k < 3)%nat). { pose proof (f2_length _ _ _ (qmonic p Hp)) as L. cbn in L. rewrite L. apply nth_error_Some. congruence. }
    unfold qcs. rewrite (nth_indep _ [] (map (cf f) qmb)) by (rewrite map_length; apply nth_error_Some; congruence). rewrite (map_nth (fun f => map (cf f) qmb)). rewrite (nth_error_nth _ _ f Hk). destruct k as [|[|[|k]]]; [reflexivity|reflexivity|reflexivity|lia].
Qed.
