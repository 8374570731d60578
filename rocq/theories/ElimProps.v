(** C70: elimination (option -e): the part of the basis without the first variables is the reduced Groebner basis of the elimination ideal, modulo
    every prime; this part is what is stored over the rationals. *)
From Coq Require Import ZArith NArith Arith List Bool Lia Sorted Znumtheory.
From Verif Require Import LinSpec MonoSpec MonoSpecProofs GbSpec GbProofs GbIdeal HilbSpec HilbModel HilbProps ModInvModel FglmModel LaModel LaProofs LaProps MonoModel MonoCmpProofs F4Model F4Rows SymbProofs SelProofs MatProofs RoundProofs FinalProofs F4Props
  DenseSpec DenseModel DenseProofs DenseProps ElimSpec ElimProofs GbProofs GbIdeal.
Import ListNotations.
Open Scope Z_scope.
Notation poly := (list (Z * mono)) (only parsing).

Lemma free_existsb k (m : mono) : (k <= length m)%nat -> existsb (fun e => negb (e =? 0)%N) (firstn k m) = false <-> free k m.
Proof.
  unfold free. revert m. induction k as [|k IH]; intros m L; [cbn; tauto|]. destruct m as [|x m]; [cbn in L; lia|]. cbn [firstn existsb mone repeat]. change (repeat 0%N k) with (mone k). cbn in L.
  destruct (N.eqb_spec x 0) as [->|NE]; cbn [negb orb].
  - rewrite (IH m) by lia. split; intros H; [f_equal; exact H|congruence].
  - split; intros H; congruence.
Qed.

Lemma one_ne p : 1 < p -> ~ eqp p 1 0.
Proof. intros H [z E]. assert (E' : p * z = 1) by lia. assert (z = 0 \/ 0 < z \/ z < 0) as [?|[?|?]] by lia; nia. Qed.

Section Prefix.
Variables (k n : nat) (p : Z).
Let nv := (k + n)%nat.
Hypothesis Hp : 1 < p.

Lemma num_prefix (out : list poly) : (forall f, In f out -> length (lmono f) = nv) -> ForallOrdPairs (fun f g => blk_lt k (lmono f) (lmono g)) out ->
  (forall g, In g (firstn (compute_num_gb (map lmono out) k) out) -> free k (lmono g)) /\
  (forall g, In g (skipn (compute_num_gb (map lmono out) k) out) -> ~ free k (lmono g)).
Proof.
  intros L S. induction S as [|f out F S IH]; [cbn; tauto|]. cbn [map compute_num_gb]. assert (Lf : length (lmono f) = nv) by (apply L; left; reflexivity).
  destruct (existsb (fun e => negb (e =? 0)%N) (firstn k (lmono f))) eqn:E.
  - cbn [firstn skipn]. split; [intros g []|]. assert (Nf : ~ free k (lmono f)) by (intros H; apply free_existsb in H; [congruence|unfold nv in Lf; lia]).
    intros g [<-|Hg]; [exact Nf|]. intros H. apply Nf. rewrite Forall_forall in F. apply (blk_free k n _ _ Lf H). apply F. exact Hg.
  - apply free_existsb in E; [|unfold nv in Lf; lia]. destruct IH as [A B]; [intros g Hg; apply L; right; exact Hg|]. cbn [firstn skipn]. split; [|exact B]. intros g [<-|Hg]; [exact E|apply A; exact Hg].
Qed.

Notation mp lt := (fun f : poly => sorted_poly nv lt p f /\ exists m f', f = (1, m) :: f').
Lemma nth_map_inv {A B} (f : A -> B) l i y : nth_error (map f l) i = Some y -> exists x, nth_error l i = Some x /\ y = f x.
Proof. rewrite nth_error_map. destruct (nth_error l i) as [x|]; [|discriminate]. intros H. exists x. split; [reflexivity|]. injection H as <-. reflexivity. Qed.

Lemma sorted_dropv (f : poly) : sorted_poly nv (blk_lt k) p f -> terms_free k n f -> sorted_poly n drl_lt p (dropv k f).
Proof.
  intros (A & B & C) T. repeat apply conj.
  - destruct f; [congruence|discriminate].
  - intros t Ht. apply in_map_iff in Ht as (s & <- & Hs). destruct (B s Hs) as [B1 B2]. split; [exact B1|]. apply len_skip. exact B2.
  - intros i j s t Hi Hj Hij. apply nth_map_inv in Hi as (s' & Hi & ->). apply nth_map_inv in Hj as (t' & Hj & ->). cbn [snd]. apply blk_skip.
    + apply T. apply nth_error_In in Hj. exact Hj.
    + apply T. apply nth_error_In in Hi. exact Hi.
    + apply (C i j); assumption.
Qed.
Lemma nth_firstn {A} (l : list A) j i x : nth_error (firstn j l) i = Some x -> nth_error l i = Some x.
Proof. revert l i. induction j as [|j IH]; intros [|y l] [|i] H; cbn in *; try discriminate; auto. Qed.
Lemma fop_firstn {A} (R : A -> A -> Prop) l j : ForallOrdPairs R l -> ForallOrdPairs R (firstn j l).
Proof.
  intros H. revert j. induction H as [|x l F H IH]; intros [|j]; cbn [firstn]; constructor; auto. rewrite Forall_forall in *. intros y Hy. apply F. rewrite <- (firstn_skipn j l). apply in_app_iff. left. exact Hy.
Qed.
Lemma fop_map {A B} (R : A -> A -> Prop) (Q : B -> B -> Prop) (f : A -> B) l : (forall x y, In x l -> In y l -> R x y -> Q (f x) (f y)) -> ForallOrdPairs R l -> ForallOrdPairs Q (map f l).
Proof.
  intros I0 H. induction H as [|x l F H IH]; cbn [map]; constructor.
  - rewrite Forall_forall in *. intros y Hy. apply in_map_iff in Hy as (z & <- & Hz). apply I0; [left; reflexivity|right; exact Hz|]. apply F. exact Hz.
  - apply IH. intros y z Hy Hz. apply I0; right; assumption.
Qed.

Definition elim_part (out : list poly) : list poly := map (dropv k) (firstn (compute_num_gb (map lmono out) k) out).
Lemma elim_part_ok (F out : list poly) : same_ideal nv p (pfs F) (pfs out) -> groebner nv (blk_lt k) p (pfs out) -> (forall f, In f out -> mp (blk_lt k) f) ->
  reduced_basis nv (blk_lt k) p out -> ForallOrdPairs (fun f g => blk_lt k (lmono f) (lmono g)) out ->
  (forall f, ideal n p (pfs (elim_part out)) f <-> elimination nv k p (pfs F) f) /\ groebner n drl_lt p (pfs (elim_part out)) /\ reduced_basis n drl_lt p (elim_part out) /\
  (forall f, In f (elim_part out) -> sorted_poly n drl_lt p f /\ exists m f', f = (1, m) :: f') /\ ForallOrdPairs (fun f g => drl_lt (lmono f) (lmono g)) (elim_part out) /\
  (forall g, In g (firstn (length (elim_part out)) out) -> terms_free k n g) /\ forall g, In g (skipn (length (elim_part out)) out) -> ~ free k (lmono g).
Proof.
  intros SI GB M RB S. unfold elim_part. set (j := compute_num_gb (map lmono out) k).
  assert (GD : Forall (good nv (blk_lt k)) out) by (apply Forall_forall; intros f Hf; apply (mpoly_good nv (blk_lt k) p); apply M; exact Hf).
  assert (LEN : forall f, In f out -> lm f = lmono f /\ length (lmono f) = nv) by (intros f Hf; apply (mpoly_lm nv (blk_lt k) p); apply M; exact Hf).
  destruct (num_prefix out (fun f Hf => proj2 (LEN f Hf)) S) as [PA PB]. fold j in PA, PB.
  assert (SUB : forall g, In g (firstn j out) -> In g out) by (intros g Hg; rewrite <- (firstn_skipn j out); apply in_app_iff; left; exact Hg).
  assert (SP : forall g, In g (firstn j out) <-> In g out /\ free k (lm g)).
  { intros g. split; intros Hg.
    - split; [apply SUB; exact Hg|]. rewrite (proj1 (LEN g (SUB g Hg))). apply PA. exact Hg.
    - destruct Hg as [Hg Fg]. rewrite (proj1 (LEN g Hg)) in Fg. rewrite <- (firstn_skipn j out) in Hg. apply in_app_iff in Hg as [Hg|Hg]; [exact Hg|]. elim (PB g Hg Fg). }
  destruct (elim_groebner k n p (one_ne p Hp) out (firstn j out) GD GB SP) as [I1 I2].
  assert (TF : forall g, In g (firstn j out) -> terms_free k n g).
  { intros g Hg. rewrite Forall_forall in GD. destruct (proj1 (SP g) Hg) as [Hg' Fg]. apply (good_free k n g); auto. }
  assert (EQ : forall g, In g (firstn j out) -> peq nv p (ext k (cf (dropv k g))) (cf g)) by (intros g Hg m Lm; rewrite (cf_dropv k n g m (TF g Hg) Lm); exists 0; lia).
  assert (LL : length (map (dropv k) (firstn j out)) = j \/ (length out < j)%nat) by (rewrite map_length, firstn_length; lia).
  repeat apply conj.
  - intros f. rewrite (I1 f). unfold elimination. symmetry. apply SI.
  - exact I2.
  - intros f Hf. apply in_map_iff in Hf as (g & <- & Hg). destruct (RB) as [RB1 _]. rewrite Forall_forall in GD. destruct (proj1 (SP g) Hg) as [Hg' Fg]. destruct (good_dropv k n g (GD g Hg') Fg) as [G1 G2].
    exists (lm (dropv k g)). split; [apply (good_lead n drl_lt p (mono_order_drl n) (one_ne p Hp)); exact G1|]. rewrite (good_lc n drl_lt (mono_order_drl n) _ G1). exists 0. lia.
  - intros i i' f g l m Hi Hi' NE Hl Lm NZ D. apply nth_map_inv in Hi as (f0 & Hi & ->). apply nth_map_inv in Hi' as (g0 & Hi' & ->).
    pose proof (nth_error_In _ _ Hi) as If. pose proof (nth_error_In _ _ Hi') as Ig. apply nth_firstn in Hi, Hi'.
    apply (proj2 RB i i' f0 g0 (mone k ++ l) (mone k ++ m) Hi Hi' NE).
    + pose proof (lead_ext k n p (cf (dropv k f0)) l Hl) as (A & B & C). split; [exact A|]. rewrite <- (cf_dropv k n f0 _ (TF f0 If)) by exact A. split; [exact B|]. intros m' Lm' Hm'. rewrite <- (cf_dropv k n f0 _ (TF f0 If)) by exact Lm'. apply C; assumption.
    + apply len_ext. exact Lm.
    + rewrite <- (cf_dropv k n g0 _ (TF g0 Ig)) by (apply len_ext; exact Lm). rewrite (ext_at k n). exact NZ.
    + apply (mdvd_ext k n). exact D.
  - intros f Hf. apply in_map_iff in Hf as (g & <- & Hg). destruct (M g (SUB g Hg)) as [M1 (m & f' & M2)]. split; [apply sorted_dropv; auto|]. rewrite M2. cbn [dropv map fst]. eauto.
  - apply (fop_map (fun f g => blk_lt k (lmono f) (lmono g))); [|apply fop_firstn; exact S]. intros f g Hf Hg H. assert (Q : forall h, In h (firstn j out) -> lmono (dropv k h) = skipn k (lmono h)).
    { intros h Hh. destruct (M h (SUB h Hh)) as [_ (m & f' & ->)]. reflexivity. }
    rewrite (Q f Hf), (Q g Hg). apply blk_skip; auto.
  - intros g Hg. apply TF. rewrite map_length in Hg. rewrite firstn_length in Hg. destruct (Nat.le_gt_cases j (length out)) as [Le|Gt]; [rewrite Nat.min_l in Hg by exact Le; exact Hg|]. rewrite (firstn_all2 out) by lia. rewrite Nat.min_r in Hg by lia. rewrite firstn_all in Hg. exact Hg.
  - intros g Hg. apply PB. rewrite map_length in Hg. rewrite firstn_length in Hg. destruct (Nat.le_gt_cases j (length out)) as [Le|Gt]; [rewrite Nat.min_l in Hg by exact Le; exact Hg|]. rewrite Nat.min_r in Hg by lia. rewrite skipn_all in Hg. destruct Hg.
Qed.
End Prefix.

(** Two reduced bases in standard form of the same ideal are the same list. *)
Lemma reduced_list_unique nv lt p (out1 out2 : list poly) : 1 < p -> mono_order nv lt ->
  (forall f, ideal nv p (pfs out1) f <-> ideal nv p (pfs out2) f) -> groebner nv lt p (pfs out1) -> groebner nv lt p (pfs out2) ->
  (forall f, In f out1 -> sorted_poly nv lt p f /\ exists m f', f = (1, m) :: f') -> (forall f, In f out2 -> sorted_poly nv lt p f /\ exists m f', f = (1, m) :: f') ->
  reduced_basis nv lt p out1 -> reduced_basis nv lt p out2 ->
  ForallOrdPairs (fun f g => lt (lmono f) (lmono g)) out1 -> ForallOrdPairs (fun f g => lt (lmono f) (lmono g)) out2 -> out1 = out2.
Proof.
  intros Hp MO SO A2 B2 A4 B4 A6 B6 A7 B7.
  assert (GA : Forall (good nv lt) out1) by (apply Forall_forall; intros f Hf; apply (mpoly_good nv lt p); apply A4; exact Hf). assert (GB : Forall (good nv lt) out2) by (apply Forall_forall; intros f Hf; apply (mpoly_good nv lt p); apply B4; exact Hf).
  assert (Half : forall o1 o2 : list poly, (forall f, In f o1 -> sorted_poly nv lt p f) -> (forall f, In f o2 -> sorted_poly nv lt p f) -> (forall g, In g o1 -> exists h, In h o2 /\ lm g = lm h /\ peq nv p (cf g) (cf h)) -> forall f, In f o1 -> In f o2).
  { intros o1 o2 S1 S2 H f Hf. destruct (H f Hf) as (g & Hg & _ & E). rewrite (sorted_poly_eq nv lt p MO Hp f g); auto. }
  apply (sorted_unique (fun f g => lt (lmono f) (lmono g)) (fun f => length (lmono f) = nv)).
  - intros a _ K. apply (lt_irr nv lt MO _ K).
  - intros a b d La Lb Ld K1 K2. apply (lt_tr nv lt MO _ (lmono b)); assumption.
  - intros a Ha. apply (mpoly_lm nv lt p). apply A4. exact Ha.
  - exact A7.
  - exact B7.
  - intros f. split; [apply Half|apply Half]; try (intros g Hg; apply A4; exact Hg); try (intros g Hg; apply B4; exact Hg).
    + apply (reduced_unique nv lt p MO (one_ne p Hp)); auto.
    + apply (reduced_unique nv lt p MO (one_ne p Hp)); auto. intros g. symmetry. apply SO.
Qed.

Lemma o_lt_blk o : (0 < o_nev o)%nat -> o_lt o = blk_lt (o_nev o).
Proof. intros H. unfold o_lt, sel. replace (0 <? o_nev o)%nat with true by (symmetry; apply Nat.ltb_lt; exact H). reflexivity. Qed.
Lemma o_lt_drl o : o_nev o = 0%nat -> o_mo o <> 1%nat -> o_lt o = drl_lt.
Proof. intros H1 H2. unfold o_lt, sel. rewrite H1. cbn [Nat.ltb Nat.leb]. replace (o_mo o =? 1)%nat with false by (symmetry; apply Nat.eqb_neq; exact H2). reflexivity. Qed.

(** * C70 *)
(** The elements of the computed basis whose leading monomials contain none of the first nev variables stand in front; none of their monomials contains
    one of these variables; without these variables they are the reduced Groebner basis, for the degree reverse lexicographic order, of the ideal of all
    polynomials in the other variables that the ideal of the input contains. *)
Theorem C70_elimination c fuel F out : cfg_ok c -> Forall (sorted_poly (o_nv (c_o c)) (o_lt (c_o c)) (c_p c)) F -> core_f4 c true fuel F = Ok out -> (0 < o_nev (c_o c))%nat ->
  let k := o_nev (c_o c) in let n := (o_nv (c_o c) - k)%nat in let p := c_p c in let j := compute_num_gb (map lmono out) k in let E := map (dropv k) (firstn j out) in
  (forall f, ideal n p (pfs E) f <-> elimination (o_nv (c_o c)) k p (pfs F) f) /\ groebner n drl_lt p (pfs E) /\ reduced_basis n drl_lt p E /\
  (forall f, In f E -> sorted_poly n drl_lt p f /\ exists m f', f = (1, m) :: f') /\ ForallOrdPairs (fun f g => drl_lt (lmono f) (lmono g)) E /\
  (forall g t, In g (firstn j out) -> In t g -> free k (snd t)) /\ forall g, In g (skipn j out) -> ~ free k (lmono g).
Proof.
  intros CK HF E Hk k n p j E'. destruct (C23_sound c true fuel F out CK HF E) as (A1 & A2 & _ & A4 & A5). destruct (A5 eq_refl) as [A6 A7]. rewrite o_lt_blk in A2, A4, A6, A7 by exact Hk. fold k p in A1, A2, A4, A6, A7.
  assert (NV : o_nv (c_o c) = (k + n)%nat) by (pose proof (ck_o c CK) as H; unfold o_ok in H; unfold n, k; lia). rewrite NV in *.
  pose proof (elim_part_ok k n p (cfg_p c CK) F out A1 A2 A4 A6 A7) as (B1 & B2 & B3 & B4 & B5 & B6 & B7). unfold elim_part in *. fold j in B1, B2, B3, B4, B5, B6, B7. fold E' in B1, B2, B3, B4, B5, B6, B7.
  assert (Lj : forall l : list poly, (length l = length (map lmono out))%nat -> firstn (length E') l = firstn j l /\ skipn (length E') l = skipn j l).
  { intros l0 H. unfold E'. rewrite map_length in *. rewrite firstn_length. destruct (Nat.le_gt_cases j (length out)) as [Le|Gt]; [rewrite Nat.min_l by exact Le; tauto|]. rewrite Nat.min_r by lia. rewrite !firstn_all2, !skipn_all2 by lia. tauto. }
  destruct (Lj out (eq_sym (map_length lmono out))) as [L1 L2]. rewrite L1 in B6. rewrite L2 in B7.
  repeat (split; [assumption|]). split; [|exact B7]. intros g t Hg Ht. apply (B6 g Hg t Ht).
Qed.
Print Assumptions C70_elimination.

(** It is the same basis as the one computed from any generators of the elimination ideal, in the other variables only. *)
Theorem C70_unique c1 c2 fuel1 fuel2 F1 F2 out1 out2 : cfg_ok c1 -> cfg_ok c2 -> (0 < o_nev (c_o c1))%nat -> o_nev (c_o c2) = 0%nat -> o_mo (c_o c2) <> 1%nat ->
  o_nv (c_o c1) = (o_nev (c_o c1) + o_nv (c_o c2))%nat -> c_p c1 = c_p c2 ->
  Forall (sorted_poly (o_nv (c_o c1)) (o_lt (c_o c1)) (c_p c1)) F1 -> Forall (sorted_poly (o_nv (c_o c2)) (o_lt (c_o c2)) (c_p c2)) F2 ->
  (forall f, ideal (o_nv (c_o c2)) (c_p c2) (pfs F2) f <-> elimination (o_nv (c_o c1)) (o_nev (c_o c1)) (c_p c1) (pfs F1) f) ->
  core_f4 c1 true fuel1 F1 = Ok out1 -> core_f4 c2 true fuel2 F2 = Ok out2 ->
  map (dropv (o_nev (c_o c1))) (firstn (compute_num_gb (map lmono out1) (o_nev (c_o c1))) out1) = out2.
Proof.
  intros K1 K2 Hk H2 M2 NV EP S1 S2 SI E1 E2. destruct (C70_elimination c1 fuel1 F1 out1 K1 S1 E1 Hk) as (A1 & A2 & A3 & A4 & A5 & _). cbv zeta in A1, A2, A3, A4, A5.
  destruct (C23_sound c2 true fuel2 F2 out2 K2 S2 E2) as (B1 & B2 & _ & B4 & B5). destruct (B5 eq_refl) as [B6 B7]. rewrite (o_lt_drl _ H2 M2) in *.
  replace (o_nv (c_o c1) - o_nev (c_o c1))%nat with (o_nv (c_o c2)) in * by lia. rewrite <- EP in *.
  apply (reduced_list_unique (o_nv (c_o c2)) drl_lt (c_p c1)); auto; [apply (cfg_p c1 K1)|apply mono_order_drl|].
  intros f. rewrite (A1 f), <- (SI f). apply B1.
Qed.
Print Assumptions C70_unique.

(** * The stored images *)
(** What the basis contains in memory: residues, exponent vectors with the degrees of the blocks. *)
Definition in_memory (nev : nat) (out : list poly) : list (option (list (N * list N))) := map (fun g => Some (map (fun t => (Z.to_N (fst t), layout nev (snd t))) g)) out.
Definition toN (g : poly) : DenseSpec.poly := map (fun t => (Z.to_N (fst t), snd t)) g.
(** The elimination part (everything, without elimination), with natural numbers as residues. *)
Definition image (nev : nat) (out : list poly) : list DenseSpec.poly :=
  map (fun g => toN (dropv nev g)) (firstn (compute_num_gb (map lmono out) nev) out).

Lemma lmono_toN (g : poly) : DenseSpec.lead (toN g) = lmono g.
Proof. destruct g; reflexivity. Qed.
Lemma fop_strong {A B} (R : B -> B -> Prop) (f : A -> B) l : ForallOrdPairs (fun x y => R (f x) (f y)) l -> StronglySorted R (map f l).
Proof. induction 1 as [|x l F H IH]; cbn [map]; constructor; auto. rewrite Forall_forall in *. intros y Hy. apply in_map_iff in Hy as (z & <- & Hz). apply F. exact Hz. Qed.
Lemma reduced_dense n p (B : list poly) : 1 < p -> (forall f, In f B -> sorted_poly n drl_lt p f /\ exists m f', f = (1, m) :: f') -> reduced_basis n drl_lt p B ->
  ForallOrdPairs (fun f g => drl_lt (lmono f) (lmono g)) B -> reduced n (map toN B).
Proof.
  intros Hp M RB ST. pose proof (mono_order_drl n) as MO. assert (LE : map DenseSpec.lead (map toN B) = map lmono B) by (rewrite map_map; apply map_ext; intros g; apply lmono_toN).
  assert (LD : forall g, In g B -> is_lead n drl_lt p (cf g) (lmono g)).
  { intros g Hg. pose proof (mpoly_good n drl_lt p g (M g Hg)) as G. pose proof (good_lead n drl_lt p MO (one_ne p Hp) g G) as L. rewrite (proj1 (mpoly_lm n drl_lt p g (M g Hg))) in L. exact L. }
  split; [|rewrite LE; apply fop_strong; exact ST]. rewrite LE. apply Forall_forall. intros f' Hf'. apply in_map_iff in Hf' as (f & <- & Hf). destruct (M f Hf) as [SP (m & r & Ef)]. repeat apply conj.
  - rewrite Ef. discriminate.
  - unfold decreasing. clear Ef Hf. destruct SP as (_ & _ & C). induction f as [|t f IH]; cbn [map]; constructor.
    + apply IH. intros i j s u Hi Hj Hij. apply (C (S i) (S j)); auto. lia.
    + apply Forall_forall. intros s Hs. apply in_map_iff in Hs as (s' & <- & Hs). cbn [snd]. apply In_nth_error in Hs as (i & Hi). apply (C O (S i) t s'); auto. lia.
  - apply Forall_forall. intros t Ht. apply in_map_iff in Ht as (s & <- & Hs). cbn [fst snd]. destruct SP as (_ & Q & _). destruct (Q s Hs) as [Q1 Q2]. split; [exact Q2|lia].
  - intros t Ht. assert (Ht' : exists s, In s r /\ t = (Z.to_N (fst s), snd s)) by (rewrite Ef in Ht; cbn [map tl] in Ht; apply in_map_iff in Ht as (s & <- & Hs); eauto). destruct Ht' as (s & Hs & ->). cbn [snd].
    assert (Is : In s f) by (rewrite Ef; right; exact Hs). destruct (proj1 (proj2 SP) s Is) as [Q1 Q2]. split; [exact Q2|]. intros l Hl D. apply in_map_iff in Hl as (g & <- & Hg).
    apply In_nth_error in Hf as (i & Hi). apply In_nth_error in Hg as (j & Hj). destruct (Nat.eq_dec j i) as [->|NE].
    + assert (g = f) by congruence. subst g. assert (LT : drl_lt (snd s) (lmono f)) by (rewrite Ef in SP; pose proof (sp_tail n drl_lt p (1, m) r SP s Hs) as Q; rewrite Ef; exact Q).
      assert (Lf : length (lmono f) = n) by (apply (mpoly_lm n drl_lt p); apply M; apply nth_error_In with (1 := Hi)). destruct (dvd_le n drl_lt MO _ _ Lf Q2 D) as [E|E]; [rewrite E in LT; apply (lt_irr n drl_lt MO _ LT)|apply (lt_irr n drl_lt MO (lmono f)); apply (lt_tr n drl_lt MO _ (snd s)); assumption].
    + apply (proj2 RB j i g f (lmono g) (snd s) Hj Hi NE); auto; [apply LD; apply nth_error_In with (1 := Hj)|].
      rewrite (sp_cf n drl_lt p MO f s SP Is). intros [z Ez]. assert (fst s = z * p) by lia. assert (z <= 0 \/ 1 <= z) as [?|?] by lia; nia.
Qed.

Definition run nv nev (c : config) (fuel : nat) (F out : list poly) : Prop :=
  cfg_ok c /\ o_nv (c_o c) = nv /\ o_nev (c_o c) = nev /\ o_mo (c_o c) <> 1%nat /\ Forall (sorted_poly nv (o_lt (c_o c)) (c_p c)) F /\ core_f4 c true fuel F = Ok out.
Lemma num_gb_zero (l : list mono) : compute_num_gb l 0 = length l.
Proof. induction l as [|m l IH]; [reflexivity|]. cbn [compute_num_gb firstn existsb length]. rewrite IH. reflexivity. Qed.
Lemma dropv_zero (g : poly) : dropv 0 g = g.
Proof. unfold dropv. rewrite <- (map_id g) at 2. apply map_ext. intros [a b]. reflexivity. Qed.
Lemma mdeg_zero (m : mono) : mdeg m = 0%N -> m = mone (length m).
Proof. induction m as [|x m IH]; [reflexivity|]. change (mdeg (x :: m)) with (x + mdeg m)%N. intros H. cbn [length mone repeat]. change (repeat 0%N (length m)) with (mone (length m)). f_equal; [lia|apply IH; lia]. Qed.
Lemma run_stored nv nev c fuel F out : run nv nev c fuel F out ->
  reduced (nv - nev) (image nev out) /\ exists D, in_memory nev out = map (kept nev) (image nev out) ++ D /\ Forall (dropped nv nev) D.
Proof.
  intros (K & NV & NE & MO & S & E). assert (LT := ck_o c K). unfold o_ok in LT. rewrite NV, NE in LT.
  destruct nev as [|nev'].
  - subst nv. destruct (C23_sound c true fuel F out K S E) as (_ & _ & _ & B4 & B5). destruct (B5 eq_refl) as [B6 B7]. rewrite (o_lt_drl _ NE MO) in *. unfold image. rewrite num_gb_zero, map_length, firstn_all.
    assert (EI : map (fun g => toN (dropv 0 g)) out = map toN out) by (apply map_ext; intros g; rewrite dropv_zero; reflexivity). rewrite EI.
    split; [rewrite Nat.sub_0_r; apply (reduced_dense _ (c_p c)); auto; apply (cfg_p c K)|]. exists []. split; [|constructor]. rewrite app_nil_r. unfold in_memory. rewrite map_map. apply map_ext. intros g. unfold kept, toN. f_equal. rewrite map_map. apply map_ext. intros t. reflexivity.
  - assert (Hk : (0 < o_nev (c_o c))%nat) by lia. rewrite <- NV in S. pose proof (C70_elimination c fuel F out K S E Hk) as A. cbv zeta in A. rewrite NE, NV in A. set (nev := Datatypes.S nev') in *. set (j := compute_num_gb (map lmono out) nev) in *.
    destruct (C23_sound c true fuel F out K S E) as (_ & _ & _ & B4 & _). rewrite NV in B4.
    destruct A as (_ & _ & A3 & A4 & A5 & A6 & A7). unfold image. fold j. rewrite <- (map_map (dropv nev) toN). split; [apply (reduced_dense _ (c_p c)); auto; apply (cfg_p c K)|].
    exists (in_memory nev (skipn j out)). split.
    + unfold in_memory at 1. rewrite <- (firstn_skipn j out) at 1. rewrite map_app. fold (in_memory nev (skipn j out)). f_equal. rewrite !map_map. apply map_ext_in. intros g Hg. unfold kept, dropv, toN. f_equal. rewrite !map_map. apply map_ext_in. intros t Ht. cbn [fst snd]. f_equal. f_equal. apply free_split. apply (A6 g t Hg Ht).
    + apply Forall_forall. intros r Hr. apply in_map_iff in Hr as (g & <- & Hg). assert (Ig : In g out) by (rewrite <- (firstn_skipn j out); apply in_app_iff; right; exact Hg). destruct (B4 g Ig) as [(_ & Q & _) (m & g' & Eg)]. specialize (A7 g Hg). rewrite Eg in A7 |- *. cbn [lmono map snd] in A7 |- *. assert (Lm : length m = nv) by (apply (Q (1, m)); rewrite Eg; left; reflexivity).
      exists (Z.to_N 1), m, (map (fun t : Z * list N => (Z.to_N (fst t), layout nev (snd t))) g'). repeat apply conj; [reflexivity|exact Lm| |discriminate]. intros Z0. apply A7. unfold free. rewrite (mdeg_zero _ Z0). f_equal. rewrite firstn_length. lia.
Qed.

Lemma holds_app nv nev B D : Forall (dropped nv nev) D -> holds nv nev B (map (kept nev) B ++ D).
Proof. intros H. induction B as [|f B IH]; cbn [map app]; [|constructor; exact IH]. induction H as [|r D Hr H IH]; constructor; auto. Qed.
(** What a prime gives: nothing, or the basis that a run of F4 modulo this prime computes (with the generators of the images of the input modulo that prime). *)
Definition prime_run nv nev (x : Z * option (list (option (list (N * list N))))) (y : Z * option (list DenseSpec.poly)) : Prop :=
  fst x = fst y /\ ((snd x = None /\ snd y = None) \/ exists c fuel F out, run nv nev c fuel F out /\ c_p c = fst x /\ snd x = Some (in_memory nev out) /\ snd y = Some (image nev out)).

(** The storage over the rationals, applied to runs of F4 modulo a first prime and further primes, with or without elimination: it does not fail, and for
    every prime kept the stored columns are the coefficients of the elimination part computed modulo this prime, which by C70_elimination is the reduced basis of the elimination ideal. *)
Theorem C70_images nv nev nthrds junk c0 fuel0 F0 out0 l ls L fuel : (1 <= nthrds)%nat -> run nv nev c0 fuel0 F0 out0 -> Forall2 (prime_run nv nev) l ls ->
  let B0 := image nev out0 in B0 <> [] ->
  (mdeg (last (map DenseSpec.lead B0) []) < i32_max)%N -> HilbSpec.lists (fun m => standard (nv - nev) (map DenseSpec.lead B0) m /\ (mdeg m <= mdeg (last (map DenseSpec.lead B0) []))%N) L ->
  (N.of_nat ((nv - nev) * length L) <= i32_max)%N -> (length L < fuel)%nat ->
  let kept_primes := (c_p c0, B0) :: taken (map DenseSpec.lead B0) ls in
  exists mb s, images fuel nv nev nthrds junk (c_p c0) (in_memory nev out0) l = Some (map DenseSpec.lead B0, mb, s) /\
    firstn (s_np s) (s_primes s) = map fst kept_primes /\ length (s_pols s) = length B0 /\
    forall k p B i g f, nth_error kept_primes k = Some (p, B) -> nth_error B i = Some g -> nth_error (s_pols s) i = Some f ->
      (k <> 2%nat \/ (junk <= i)%nat) -> exists v, column k f = Some v /\ stands_for v (firstn (length f) mb) g.
Proof.
  intros HT R0 RS B0 NB HD HL Hsz Hf kp. destruct (run_stored _ _ _ _ _ _ R0) as [RD (D & ED & DD)]. assert (Hlt : (nev < nv)%nat) by (destruct R0 as (K & NV & NE & _); pose proof (ck_o c0 K) as H; unfold o_ok in H; lia).
  assert (RS' : Forall2 (answers nv nev) l ls).
  { clear -RS. induction RS as [|x y l ls H RS IH]; constructor; auto. destruct H as [E [[E1 E2]|(c & fu & F & out & R & _ & E1 & E2)]]; split; auto; rewrite E1, E2; [exact Logic.I|].
    destruct (run_stored _ _ _ _ _ _ R) as [RD (D & ED & DD)]. split; [|exact RD]. rewrite ED. apply holds_app. exact DD. }
  destruct (C65_images nv nev nthrds junk (c_p c0) B0 D l ls L fuel Hlt HT NB RD DD HD HL Hsz Hf RS') as (mb & s & H1 & _ & _ & H2 & H3 & H4). cbv zeta in *.
  exists mb, s. rewrite ED. split; [exact H1|]. split; [exact H2|]. split; [exact H3|]. intros k p B i g f X1 X2 X3 X4. destruct (H4 k p B i g f X1 X2 X3) as (_ & Q & _). apply Q. exact X4.
Qed.
Print Assumptions C70_images.

(** ** Example: the first variable eliminated from t^2 - x, t^3 - y gives x^3 - y^2; modulo 101 and modulo 7 *)
Definition ord3 : ordering := {| o_nv := 3%nat; o_nev := 1%nat; o_mo := 0%nat |}.
Definition cusp (p : Z) : list poly := [[(1, [2; 0; 0]%N); (p - 1, [0; 1; 0]%N)]; [(1, [3; 0; 0]%N); (p - 1, [0; 0; 1]%N)]].
Definition cusp_out (p : Z) : list poly :=
  [[(1, [0; 3; 0]%N); (p - 1, [0; 0; 2]%N)]; [(1, [1; 0; 1]%N); (p - 1, [0; 2; 0]%N)]; [(1, [1; 1; 0]%N); (p - 1, [0; 0; 1]%N)]; [(1, [2; 0; 0]%N); (p - 1, [0; 1; 0]%N)]].
Definition cfg3 (p : Z) : config := std_config ord3 K31 p 2.
Definition cfg_two : config := std_config {| o_nv := 2%nat; o_nev := 0%nat; o_mo := 0%nat |} K31 101 2.
Lemma prime_7 : prime 7.
Proof. apply prime_intro; [lia|]. intros n Hn. apply Zgcd_1_rel_prime. assert (n = 1 \/ n = 2 \/ n = 3 \/ n = 4 \/ n = 5 \/ n = 6) as [->|[->|[->|[->|[->| ->]]]]] by lia; reflexivity. Qed.
Lemma cfg3_ok p : p = 101 \/ p = 7 -> cfg_ok (cfg3 p).
Proof. intros H. apply std_config_ok; [unfold o_ok; cbn; lia|destruct H as [->| ->]; [apply prime_101|apply prime_7]|unfold in_class; lia|lia]. Qed.
Lemma cusp_sorted p : p = 101 \/ p = 7 -> Forall (sorted_poly 3 (o_lt ord3) p) (cusp p).
Proof. intros H. constructor; [|constructor; [|constructor]]; apply (sortedb_ok ord3); try discriminate; try (unfold o_ok; cbn; lia); destruct H as [->| ->]; vm_compute; reflexivity. Qed.
Lemma cusp_run p : p = 101 \/ p = 7 -> run 3 1 (cfg3 p) 20 (cusp p) (cusp_out p).
Proof.
  intros H. split; [apply cfg3_ok; exact H|]. split; [reflexivity|]. split; [reflexivity|]. split; [discriminate|]. split; [apply cusp_sorted; exact H|]. destruct H as [->| ->]; vm_compute; reflexivity.
Qed.
Example C70_ex : core_f4 (cfg3 101) true 20 (cusp 101) = Ok (cusp_out 101) /\
  map (dropv 1) (firstn (compute_num_gb (map lmono (cusp_out 101)) 1) (cusp_out 101)) = [[(1, [3; 0]%N); (100, [0; 2]%N)]] /\
  core_f4 cfg_two true 20 [[(5, [3; 0]%N); (96, [0; 2]%N)]] = Ok [[(1, [3; 0]%N); (100, [0; 2]%N)]] /\
  forall f, ideal 2 101 (pfs [[(1, [3; 0]%N); (100, [0; 2]%N)]]) f <-> elimination 3 1 101 (pfs (cusp 101)) f.
Proof.
  split; [vm_compute; reflexivity|]. split; [reflexivity|]. split; [vm_compute; reflexivity|].
  apply (C70_elimination (cfg3 101) 20 (cusp 101) (cusp_out 101)); [apply cfg3_ok; left; reflexivity|apply cusp_sorted; left; reflexivity|vm_compute; reflexivity|cbn; lia].
Qed.
Example C70_images_ex : exists mb s, images 20 3 1 1 0 101 (in_memory 1 (cusp_out 101)) [(7, Some (in_memory 1 (cusp_out 7)))] = Some ([[3; 0]]%N, mb, s) /\ firstn (s_np s) (s_primes s) = [101; 7] /\
  forall f, nth_error (s_pols s) 0 = Some f -> exists v, column 1 f = Some v /\ stands_for v (firstn (length f) mb) [(1, [3; 0]); (6, [0; 2])]%N.
Proof.
  destruct (C70_images 3 1 1 0 (cfg3 101) 20 (cusp 101) (cusp_out 101) [(7, Some (in_memory 1 (cusp_out 7)))] [(7, Some (image 1 (cusp_out 7)))]
    [[0; 0]; [0; 1]; [1; 0]; [0; 2]; [1; 1]; [2; 0]; [0; 3]; [1; 2]; [2; 1]]%N 20) as (mb & s & H1 & H2 & _ & H3).
  - lia.
  - apply cusp_run. left. reflexivity.
  - constructor; [|constructor]. split; [reflexivity|]. right. exists (cfg3 7), 20%nat, (cusp 7), (cusp_out 7). split; [apply cusp_run; right; reflexivity|]. repeat split.
  - discriminate.
  - reflexivity.
  - split; [repeat (constructor; [cbn; intuition discriminate|]); constructor|]. intros m. change (map DenseSpec.lead _) with [[3; 0]]%N. cbn [last]. split.
    + intros Hm. assert (K : exists a b, m = [a; b] /\ (a < 3 /\ a + b <= 3)%N) by (cbn in Hm; repeat (destruct Hm as [<-|Hm]; [eexists; eexists; split; [reflexivity|lia]|]); contradiction). destruct K as (a & b & -> & K1 & K2). split; [|cbn; lia]. split; [reflexivity|]. intros l [<-|[]] D. specialize (D O). cbn in D. lia.
    + intros [[L D] G]. destruct m as [|a [|b [|? ?]]]; try discriminate. change (mdeg [a; b]) with (a + (b + 0))%N in G. change (mdeg [3; 0]%N) with 3%N in G.
      assert (K : (a < 3)%N) by (destruct (N.lt_ge_cases a 3) as [|Q]; [assumption|]; exfalso; apply (D [3; 0]%N (or_introl eq_refl)); intros [|[|[|i]]]; cbn; try lia).
      assert (a = 0 /\ (b = 0 \/ b = 1 \/ b = 2 \/ b = 3) \/ a = 1 /\ (b = 0 \/ b = 1 \/ b = 2) \/ a = 2 /\ (b = 0 \/ b = 1))%N as C by lia.
      repeat match goal with H : _ \/ _ |- _ => destruct H | H : _ /\ _ |- _ => destruct H end; subst; cbn; tauto.
  - vm_compute. discriminate.
  - cbn. lia.
  - exists mb, s. split; [exact H1|]. split; [exact H2|]. intros f Hf. apply (H3 1%nat 7 (image 1 (cusp_out 7)) O _ f); [reflexivity|reflexivity|exact Hf|right; lia].
Qed.

(** When the elimination ideal is zero nothing of the basis is kept, and the computation over the rationals reads before the beginning of an array (the
    degree of the last leading monomial of an empty list, hilbert.c l.1313), for every run. *)
Theorem C70_zero nv nev nthrds junk c0 fuel0 F0 out0 l fuel : run nv nev c0 fuel0 F0 out0 -> (0 < nev)%nat ->
  (forall f, elimination nv nev (c_p c0) (pfs F0) f -> peq (nv - nev) (c_p c0) f pzero) -> images fuel nv nev nthrds junk (c_p c0) (in_memory nev out0) l = None.
Proof.
  intros (K & NV & NE & MO & S & E) Hk Z0. rewrite <- NV in S. pose proof (C70_elimination c0 fuel0 F0 out0 K S E) as A. rewrite NE in A. specialize (A Hk). cbv zeta in A. rewrite NV in A. destruct A as (A1 & _ & _ & A4 & _).
  assert (J : compute_num_gb (map lmono out0) nev = O).
  { destruct out0 as [|g out0]; [reflexivity|]. destruct (compute_num_gb (map lmono (g :: out0)) nev) as [|j] eqn:EJ; [reflexivity|]. exfalso. cbn [firstn map] in A1, A4.
    destruct (A4 (dropv nev g) (or_introl eq_refl)) as [SP (m & r & Eg)]. assert (G : good (nv - nev) drl_lt (dropv nev g)) by (apply (mpoly_good _ _ (c_p c0)); split; [exact SP|eauto]).
    assert (H : peq (nv - nev) (c_p c0) (cf (dropv nev g)) pzero) by (apply Z0; apply A1; apply ideal_gen; exists (dropv nev g); split; [left; reflexivity|reflexivity]).
    pose proof (good_len _ _ _ G) as Lm. specialize (H (lm (dropv nev g)) Lm). rewrite (good_lc _ drl_lt (mono_order_drl _) _ G) in H. apply (one_ne (c_p c0) (cfg_p c0 K) H). }
  unfold images. enough (X : learn fuel nv nev (c_p c0) (in_memory nev out0) = None) by (rewrite X; reflexivity). unfold learn.
  destruct (omap (lm_of nv nev) (in_memory nev out0)) as [lms|] eqn:EL; [|reflexivity]. cbn [obind].
  assert (J' : compute_num_gb lms nev = O).
  { destruct out0 as [|g out0]; [injection EL as <-; reflexivity|]. destruct (C23_sound c0 true fuel0 F0 (g :: out0) K S E) as (_ & _ & _ & B4 & _). destruct (B4 g (or_introl eq_refl)) as [(_ & Q & _) (m & r & Eg)]. rewrite NV in Q. assert (Lm : length m = nv) by (apply (Q (1, m)); rewrite Eg; left; reflexivity).
    assert (Hlt : (nev < nv)%nat) by (pose proof (ck_o c0 K) as H; unfold o_ok in H; lia).
    rewrite Eg in EL, J. unfold in_memory in EL. cbn [map omap lm_of fst snd] in EL. rewrite exps_layout in EL by (try exact Lm; lia). cbn [obind] in EL. cbn [map lmono snd compute_num_gb] in J. destruct (omap (lm_of nv nev) _) as [rest|] in EL; [|discriminate]. injection EL as <-. cbn [compute_num_gb]. destruct (existsb _ (firstn nev m)); [reflexivity|discriminate]. }
  rewrite J'. cbn [firstn map]. reflexivity.
Qed.
Print Assumptions C70_zero.
(** t x - 1 with t eliminated, modulo 101 *)
Definition ord21 : ordering := {| o_nv := 2%nat; o_nev := 1%nat; o_mo := 0%nat |}.
Definition hyp : list poly := [[(1, [1; 1]%N); (100, [0; 0]%N)]].
Example C70_zero_ex : run 2 1 (std_config ord21 K31 101 2) 20 hyp hyp /\ forall f, elimination 2 1 101 (pfs hyp) f -> peq 1 101 f pzero.
Proof.
  assert (K : cfg_ok (std_config ord21 K31 101 2)) by (apply std_config_ok; [unfold o_ok; cbn; lia|apply prime_101|unfold in_class; lia|lia]).
  assert (S0 : Forall (sorted_poly 2 (o_lt ord21) 101) hyp) by (constructor; [|constructor]; apply (sortedb_ok ord21); try discriminate; try (unfold o_ok; cbn; lia); vm_compute; reflexivity).
  assert (E : core_f4 (std_config ord21 K31 101 2) true 20 hyp = Ok hyp) by (vm_compute; reflexivity).
  split; [split; [exact K|]; split; [reflexivity|]; split; [reflexivity|]; split; [discriminate|]; split; [exact S0|exact E]|].
  intros f Hf. destruct (C70_elimination _ _ _ _ K S0 E ltac:(cbn; lia)) as (A & _). apply A in Hf. cbn in Hf. clear -Hf. unfold ideal in Hf.
  induction Hf as [g (u & h & Lu & (q & [] & _) & _)| |a g h Hg IHg Hh IHh|g h Hg IHg E]; intros m Lm.
  - reflexivity.
  - specialize (IHg m Lm). specialize (IHh m Lm). destruct IHg as [y Y], IHh as [z W]. exists (a * y + z). unfold pzero in *. nia.
  - specialize (E m Lm). specialize (IHg m Lm). destruct IHg as [y Y], E as [z W]. exists (y - z). unfold pzero in *. lia.
Qed.
