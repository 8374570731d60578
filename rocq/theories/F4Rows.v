(** Rows of the matrix as multiples of basis elements; results of the model that are values or limits. *)
From Coq Require Import ZArith NArith Arith List Bool Lia Permutation Sorted.
From Verif Require Import LinSpec MonoSpec MonoModel MonoSpecProofs GbSpec GbProofs LaModel F4Model UpdProofs.
Import ListNotations.
Open Scope Z_scope.

(** * Results *)
Definition okl {A} (x : res A) (P : A -> Prop) : Prop := match x with Ok a => P a | Limit => True | _ => False end.
Definition okn {A} (fuel N : nat) (x : res A) (P : A -> Prop) : Prop := match x with Ok a => P a | Limit => True | More => (fuel < N)%nat | Undef => False end.
Lemma okl_bind {A B} (x : res A) (f : A -> res B) P Q : okl x P -> (forall a, P a -> okl (f a) Q) -> okl (rbind x f) Q.
Proof. destruct x; cbn; auto. Qed.
Lemma okn_bind {A B} n N (x : res A) (f : A -> res B) P Q : okn n N x P -> (forall a, P a -> okn n N (f a) Q) -> okn n N (rbind x f) Q.
Proof. destruct x; cbn; auto. Qed.
Lemma okl_okn {A} n N (x : res A) P : okl x P -> okn n N x P.
Proof. destruct x; cbn; auto. contradiction. Qed.
Lemma okl_imp {A} (x : res A) (P Q : A -> Prop) : okl x P -> (forall a, P a -> Q a) -> okl x Q.
Proof. destruct x; cbn; auto. Qed.
Lemma okn_imp {A} n N M (x : res A) (P Q : A -> Prop) : okn n N x P -> (N <= M)%nat -> (forall a, P a -> Q a) -> okn n M x Q.
Proof. destruct x; cbn; auto. lia. Qed.
Lemma okl_eq {A} (x : res A) P : okl x P -> okl x (fun a => x = Ok a /\ P a).
Proof. destruct x; cbn; auto. Qed.
Lemma okl_rmap {A B} (f : A -> res B) (P : A -> B -> Prop) l : (forall a, In a l -> okl (f a) (P a)) -> okl (rmap f l) (fun l' => Forall2 P l l').
Proof.
  induction l as [|a l IH]; cbn [rmap]; intros H; [constructor|]. apply (okl_bind _ _ (P a)); [apply H; left; reflexivity|]. intros b Hb.
  apply (okl_bind _ _ (Forall2 P l)); [apply IH; intros x Hx; apply H; right; exact Hx|]. intros bs Hbs. constructor; assumption.
Qed.
Lemma okl_when b : okl (when b) (fun _ => b = true).
Proof. destruct b; cbn; auto. Qed.
Lemma F2_in_l {A B} (P : A -> B -> Prop) l l' a : Forall2 P l l' -> In a l -> exists b, In b l' /\ P a b.
Proof. induction 1; intros []; [subst; eexists; split; [left; reflexivity|assumption]|]. destruct IHForall2 as (b & Hb & Pb); auto. exists b. split; [right|]; assumption. Qed.
Lemma F2_in_r {A B} (P : A -> B -> Prop) l l' b : Forall2 P l l' -> In b l' -> exists a, In a l /\ P a b.
Proof. induction 1; intros []; [subst; eexists; split; [left; reflexivity|assumption]|]. destruct IHForall2 as (a & Ha & Pa); auto. exists a. split; [right|]; assumption. Qed.
Lemma F2_len {A B} (P : A -> B -> Prop) l l' : Forall2 P l l' -> length l = length l'.
Proof. induction 1; cbn; auto. Qed.
Lemma F2_imp {A B} (P Q : A -> B -> Prop) l l' : (forall a b, In a l -> P a b -> Q a b) -> Forall2 P l l' -> Forall2 Q l l'.
Proof. intros H F. induction F; constructor; [apply H; [left; reflexivity|assumption]|]. apply IHF. intros a b Ha. apply H. right. exact Ha. Qed.

Section Rows.
Variables (nv : nat) (lt : mono -> mono -> Prop) (p : Z).
Hypothesis MO : mono_order nv lt.
Hypothesis Hp : 1 < p.
Notation poly := (list (Z * mono)) (only parsing).

Lemma P1 : ~ eqp p 1 0.
Proof. intros K. apply Z.divide_pos_le in K; lia. Qed.
Lemma sp_tail (t : Z * mono) (f : poly) : sorted_poly nv lt p (t :: f) -> forall s, In s f -> lt (snd s) (snd t).
Proof. intros (_ & _ & H) s Hs. apply In_nth_error in Hs as (j & Hj). apply (H O (S j) t s); [reflexivity|exact Hj|lia]. Qed.
Lemma sp_rest (t : Z * mono) (f : poly) : f <> [] -> sorted_poly nv lt p (t :: f) -> sorted_poly nv lt p f.
Proof. intros N (_ & H1 & H2). split; [exact N|]. split; [intros s Hs; apply H1; right; exact Hs|]. intros i j s u Hi Hj Hij. apply (H2 (S i) (S j)); [exact Hi|exact Hj|lia]. Qed.
Lemma sp_cons (t : Z * mono) (f : poly) : 0 < fst t < p -> length (snd t) = nv -> (forall s, In s f -> lt (snd s) (snd t)) -> f = [] \/ sorted_poly nv lt p f -> sorted_poly nv lt p (t :: f).
Proof.
  intros H1 H2 H3 H4. split; [discriminate|]. split.
  - intros s [<-|Hs]; [auto|]. destruct H4 as [->|(_ & H4 & _)]; [destruct Hs|]. apply H4. exact Hs.
  - intros [|i] [|j] s u Hi Hj Hij; [lia| |lia|]; cbn [nth_error] in *.
    + injection Hi as <-. apply H3. eapply nth_error_In; eassumption.
    + destruct H4 as [->|(_ & _ & H4)]; [destruct i; discriminate|]. apply (H4 i j); auto. lia.
Qed.
Lemma sp_nodup (f : poly) : sorted_poly nv lt p f -> NoDup (map snd f).
Proof.
  induction f as [|t f IH]; intros H; [constructor|]. cbn [map]. constructor.
  - intros K. apply in_map_iff in K as (s & E & Hs). pose proof (sp_tail t f H s Hs) as L. rewrite E in L. apply (lt_irr nv lt MO _ L).
  - destruct f as [|s f]; [constructor|]. apply IH. apply (sp_rest t); [discriminate|exact H].
Qed.
Lemma cf_nodup (f : poly) (t : Z * mono) : NoDup (map snd f) -> In t f -> cf f (snd t) = fst t.
Proof.
  induction f as [|s f IH]; intros N []; cbn [map] in N; inversion N as [|? ? N1 N2]; subst; cbn [cf].
  - destruct (mono_dec (snd t) (snd t)); [|congruence]. rewrite cf_not_in; [lia|]. intros u Hu E. apply N1. rewrite <- E. apply in_map. exact Hu.
  - destruct (mono_dec (snd s) (snd t)) as [E|]; [|auto]. exfalso. apply N1. rewrite E. apply in_map. assumption.
Qed.
Lemma cf_nz (f : poly) (m : mono) : cf f m <> 0 -> exists t, In t f /\ snd t = m.
Proof.
  induction f as [|s f IH]; cbn [cf]; [congruence|]. destruct (mono_dec (snd s) m) as [E|]; [exists s; split; [left; reflexivity|exact E]|]. intros H. destruct (IH H) as (t & Ht & E). exists t. split; [right; exact Ht|exact E].
Qed.
Lemma sp_cf (f : poly) (t : Z * mono) : sorted_poly nv lt p f -> In t f -> cf f (snd t) = fst t.
Proof. intros H. apply cf_nodup. apply sp_nodup. exact H. Qed.

(** monic polynomials as stored *)
Definition mpoly (f : poly) : Prop := sorted_poly nv lt p f /\ exists (l : mono) (r : poly), f = (1, l) :: r.
Lemma mpoly_good f : mpoly f -> good nv lt f.
Proof.
  intros (H & l & r & ->). exists l, r. split; [reflexivity|]. split; [apply (proj1 (proj2 H) (1, l)); left; reflexivity|]. intros t Ht. split; [apply (proj1 (proj2 H)); right; exact Ht|]. apply (sp_tail (1, l) r H t Ht).
Qed.
Lemma mpoly_lm f : mpoly f -> lm f = lmono f /\ length (lmono f) = nv.
Proof. intros H. split; [destruct f; reflexivity|]. destruct H as (H & l & r & ->). apply (proj1 (proj2 H) (1, l)). left. reflexivity. Qed.
Lemma mpoly_terms f t : mpoly f -> In t f -> 0 < fst t < p /\ length (snd t) = nv.
Proof. intros ((_ & H & _) & _). apply H. Qed.
Lemma mpoly_below f t : mpoly f -> In t f -> snd t = lmono f \/ lt (snd t) (lmono f).
Proof. intros (H & l & r & ->) [<-|Ht]; [left; reflexivity|right; apply (sp_tail (1, l) r H t Ht)]. Qed.
Lemma mpoly_lead f : mpoly f -> is_lead nv lt p (cf f) (lmono f).
Proof. intros H. destruct (mpoly_lm f H) as [<- _]. apply good_lead; [exact MO|exact P1|apply mpoly_good; exact H]. Qed.
Lemma mpoly_lm_in f : mpoly f -> exists t, In t f /\ snd t = lmono f.
Proof. intros (H & l & r & ->). exists (1, l). split; [left|]; reflexivity. Qed.

Definition mulp (u : mono) (f : poly) : poly := map (fun t => (fst t, mmul u (snd t))) f.
Lemma mulp_terms u f t : In t (mulp u f) <-> exists s, In s f /\ t = (fst s, mmul u (snd s)).
Proof. unfold mulp. rewrite in_map_iff. split; intros (s & H1 & H2); exists s; split; auto. Qed.
Lemma mulp_sorted u f : length u = nv -> sorted_poly nv lt p f -> sorted_poly nv lt p (mulp u f).
Proof.
  intros Hu (H0 & H1 & H2). split; [destruct f; [congruence|discriminate]|]. split.
  - intros t Ht. apply mulp_terms in Ht as (s & Hs & ->). destruct (H1 s Hs). cbn [fst snd]. split; [assumption|]. rewrite mmul_length; lia.
  - intros i j s t Hi Hj Hij. unfold mulp in Hi, Hj. rewrite nth_error_map in Hi, Hj. destruct (nth_error f i) as [s0|] eqn:Ei; [|discriminate]. destruct (nth_error f j) as [t0|] eqn:Ej; [|discriminate]. cbn in Hi, Hj. injection Hi as <-. injection Hj as <-. cbn [snd].
    apply (lt_mul nv lt MO); [apply H1; eapply nth_error_In; eassumption|apply H1; eapply nth_error_In; eassumption|exact Hu|]. apply (H2 i j); assumption.
Qed.
Lemma mulp_mpoly u f : length u = nv -> mpoly f -> mpoly (mulp u f).
Proof. intros Hu (H & l & r & ->). split; [apply mulp_sorted; assumption|]. cbn. eexists _, _. reflexivity. Qed.
Lemma lmono_mulp u f : f <> [] -> lmono (mulp u f) = mmul u (lmono f).
Proof. destruct f; [congruence|reflexivity]. Qed.
Lemma cf_mulp u (f : poly) (m : mono) : length u = nv -> (forall t : Z * mono, In t f -> length (snd t) = nv) -> length m = nv -> cf (mulp u f) m = pmul u (cf f) m.
Proof.
  intros Hu Hf Hm. induction f as [|t f IH]; [cbn; unfold pmul; destruct (mdvdb u m); reflexivity|].
  assert (Lt : length (snd t) = nv) by (apply Hf; left; reflexivity).
  change (cf (mulp u (t :: f)) m) with (if mono_dec (mmul u (snd t)) m then fst t + cf (mulp u f) m else cf (mulp u f) m). rewrite IH by (intros s Hs; apply Hf; right; exact Hs).
  destruct (pmul_cases nv u (cf (t :: f)) m Hu Hm) as [(n & Ln & Em & E)|(Hd & E)].
  - rewrite E. subst m. rewrite (pmul_at nv u (cf f) n Hu Ln). cbn [cf]. destruct (mono_dec (mmul u (snd t)) (mmul u n)) as [Eq|Ne].
    + assert (Eq' : snd t = n) by (rewrite <- (mquo_mul u (snd t)), Eq, mquo_mul; congruence). destruct (mono_dec (snd t) n) as [|K]; [reflexivity|contradiction].
    + destruct (mono_dec (snd t) n) as [K|_]; [rewrite K in Ne; congruence|reflexivity].
  - rewrite E. rewrite (pmul_out nv u (cf f) m Hu Hm Hd). destruct (mono_dec (mmul u (snd t)) m) as [Eq|]; [|reflexivity]. exfalso. apply Hd. rewrite <- Eq. apply mul_dvd. congruence.
Qed.

(** * Rows *)
Definition mrow (els : list elt) (r : poly) : Prop := exists e u, In e els /\ length u = nv /\ r = mulp u (e_pol e).
Definition els_ok (els : list elt) : Prop := forall e, In e els -> mpoly (e_pol e).
Lemma mrow_mpoly els r : els_ok els -> mrow els r -> mpoly r.
Proof. intros H (e & u & He & Hu & ->). apply mulp_mpoly; auto. Qed.
Lemma row_at_ok els m i g : els_ok els -> nth_error els i = Some g -> length m = nv -> mdvd (e_lm g) m ->
  okl (row_at els m i) (fun r => mrow els r /\ lmono r = m /\ r = mulp (mquo m (e_lm g)) (e_pol g)).
Proof.
  intros He Hi Hm Hd. unfold row_at. rewrite Hi. cbn [of_opt rbind]. unfold mul_row. fold (mulp (mquo m (e_lm g)) (e_pol g)). apply (okl_bind _ _ _ _ (okl_when _)). intros _ _. cbn [okl].
  assert (Hg : In g els) by (eapply nth_error_In; eassumption). pose proof (He g Hg) as Mg. destruct (mpoly_lm _ Mg) as [_ Ll]. fold (e_lm g) in Ll.
  assert (Lq : length (mquo m (e_lm g)) = nv) by (rewrite mquo_length; lia).
  split; [exists g, (mquo m (e_lm g)); auto|]. split; [|reflexivity]. rewrite lmono_mulp by (destruct Mg as ((K & _) & _); exact K). fold (e_lm g). rewrite mmul_comm by congruence. apply (mul_quo nv); assumption.
Qed.
End Rows.
