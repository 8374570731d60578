(** The whole lifting loop of GliftModel. *)
From Coq Require Import ZArith Znumtheory Arith List Bool Lia.
From Verif Require Import ModInvModel CrtModel GliftSpec GliftModel GliftProofs.
Import ListNotations.
Open Scope Z_scope.

Fixpoint goods (ins : list input) : list image :=
  match ins with [] => [] | i :: r => match i_img i with None => goods r | Some cs => (i_prime i, cs) :: goods r end end.
Lemma map_nth_seq {A} (l : list A) d : l = map (fun k => nth k l d) (seq 0 (length l)).
Proof.
  induction l as [|x l IH]; [reflexivity|]. cbn [length seq map nth]. f_equal. rewrite <- seq_shift, map_map. exact IH.
Qed.
Lemma combine_map_seq {A B C} (l : list A) d (F : nat -> B) (h : A * B -> C) : map h (combine l (map F (seq 0 (length l)))) = map (fun k => h (nth k l d, F k)) (seq 0 (length l)).
Proof.
  rewrite (map_nth_seq l d) at 1. generalize (seq 0 (length l)). intros s. induction s as [|k s IH]; cbn; [reflexivity|]. f_equal. exact IH.
Qed.
Lemma NoDup_skip_mid {A} (l m : list A) p : NoDup (l ++ m ++ [p]) -> NoDup (l ++ [p]).
Proof.
  induction l as [|a l IH]; intros N1; cbn in *; [constructor; [intros []|constructor]|]. apply NoDup_cons_iff in N1 as [M2 M3]. constructor; [|apply IH; exact M3]. intros Hi. apply M2. apply in_app_or in Hi as [Hi|[<-|[]]]; [apply in_or_app; left; exact Hi|apply in_or_app; right; apply in_or_app; right; left; reflexivity].
Qed.
Lemma NoDup_snoc {A} (l : list A) p : ~ In p l -> NoDup l -> NoDup (l ++ [p]).
Proof.
  induction l as [|a l IH]; intros M1 M2; cbn; [constructor; [intros []|constructor]|]. apply NoDup_cons_iff in M2 as [M3 M4]. constructor; [intros Hi; apply in_app_or in Hi as [Hi|[<-|[]]]; [contradiction|apply M1; left; reflexivity]|apply IH; [intros Hi; apply M1; right; exact Hi|assumption]].
Qed.
Section run.
Variables (p0 : Z) (cs0 : list (list Z)).
Definition len (k : nat) : nat := length (nth k cs0 []).
Definition x0 (k c : nat) : Z := nth c (nth k cs0 []) 0.
Definition imgs_of (G : list image) : list (list (list Z)) :=
  map (fun k => map (fun c => map (cf k c) (rev G) ++ [x0 k c]) (seq 0 (len k))) (seq 0 (length cs0)).
Lemma imgs_nil : map g_img (map init_pol cs0) = imgs_of [].
Proof.
  rewrite map_map. unfold imgs_of. cbn [rev map app]. rewrite (map_nth_seq cs0 []) at 1. rewrite map_map. apply map_ext. intros k. cbn [g_img init_pol]. unfold len, x0. rewrite (map_nth_seq (nth k cs0 []) 0) at 1. rewrite map_map. reflexivity.
Qed.
Lemma imgs_push G p cs : shaped cs0 cs -> push_imgs cs (imgs_of G) = imgs_of (G ++ [(p, cs)]).
Proof.
  intros [L K]. unfold push_imgs, imgs_of. rewrite <- L. rewrite (combine_map_seq cs []). apply map_ext. intros k. cbn [fst snd]. unfold len. rewrite <- (K k). rewrite (combine_map_seq (nth k cs []) 0). apply map_ext. intros c. cbn [fst snd]. rewrite rev_app_distr. reflexivity.
Qed.
Definition Inv (G : list image) (s : lift) : Prop := SI p0 (rev (map fst G)) s /\ map g_img (l_pols s) = imgs_of G.
Definition input_ok (im : image) : Prop := shaped cs0 (snd im) /\ in_range im.
Lemma nth_error_map_seq {B} (F : nat -> B) n k y : nth_error (map F (seq 0 n)) k = Some y -> (k < n)%nat /\ y = F k.
Proof.
  intros H. assert (L : (k < n)%nat) by (apply (f_equal (fun o => match o with None => None | Some _ => Some tt end)) in H; assert (Q : nth_error (map F (seq 0 n)) k <> None) by (destruct (nth_error (map F (seq 0 n)) k); discriminate); apply nth_error_Some in Q; rewrite map_length, seq_length in Q; exact Q). split; [exact L|].
  rewrite (nth_error_nth' _ (F 0%nat)) in H by (rewrite map_length, seq_length; exact L). injection H as <-. rewrite map_nth, seq_nth by exact L. reflexivity.
Qed.
Lemma Inv_image G s cs p : Inv G s -> input_ok (p, cs) -> image_ok p s cs.
Proof.
  intros [_ M] [[L K] R]. cbn [snd] in L, K. unfold image_ok. apply (f_equal (map (@length _))) in M. rewrite map_map in M. assert (E : map (fun g => length (g_img g)) (l_pols s) = map (@length Z) cs).
  { rewrite M. unfold imgs_of. rewrite map_map. rewrite (map_nth_seq cs []) at 1. rewrite map_map, L. apply map_ext. intros k. rewrite map_length, seq_length. unfold len. symmetry. apply K. }
  clear M. unfold in_range in R. cbn [fst snd] in R. clear L K. revert E R. generalize (l_pols s). intros l. revert l. induction cs as [|c cs IH]; intros [|g l] E R; try discriminate; constructor; injection E as E1 E2; [split; [congruence|intros x Hx; apply (R c); [left; reflexivity|exact Hx]]|apply IH; [exact E2|intros c' Hc'; apply R; right; exact Hc']].
Qed.
Lemma good_ok L : good_primes L -> primes_ok L.
Proof. intros [A B]. split; [intros p Hp; apply B; exact Hp|exact A]. Qed.
Lemma lift_all_ok ins : forall G s, (forall im, In im (goods ins) -> input_ok im) -> good_primes (map fst (G ++ goods ins) ++ [p0]) -> Inv G s ->
  exists s' b G', lift_all ins s = Some (s', b) /\ (exists rest, G ++ goods ins = G' ++ rest) /\ Inv G' s' /\ (b = true -> finished s' = true).
Proof.
  induction ins as [|i ins IH]; intros G s HI HP HV; cbn [lift_all goods]; [exists s, false, G; split; [reflexivity|]; split; [exists []; reflexivity|]; split; [exact HV|discriminate]|]. destruct (i_img i) as [cs|] eqn:EI.
  - cbn [goods] in HI, HP. rewrite EI in HI, HP. destruct HV as [HS HM]. assert (OK : primes_ok (i_prime i :: rev (map fst G) ++ [p0])).
    { apply good_ok. destruct HP as [N A]. rewrite map_app in N, A. cbn [map fst] in N, A. rewrite <- app_assoc in N, A. cbn [app] in N, A. split.
      - apply NoDup_remove in N as [N1 N2]. constructor; [intros Hi; apply N2; apply in_app_or in Hi as [Hi|[Hi|[]]]; [apply in_or_app; left; apply in_rev; exact Hi|apply in_or_app; right; apply in_or_app; right; left; exact Hi]|].
        pose proof (NoDup_skip_mid _ _ _ N1) as N3.
        apply (NoDup_rev (l := map fst G ++ [p0])) in N3. rewrite rev_app_distr in N3. cbn in N3. inversion N3 as [|? ? M1 M2]; subst. apply NoDup_snoc; assumption.
      - intros p [<-|Hp]; apply A; [apply in_or_app; right; left; reflexivity|]. apply in_app_or in Hp as [Hp|[<-|[]]]; [apply in_or_app; left; apply in_rev; exact Hp|apply in_or_app; right; right; apply in_or_app; right; left; reflexivity]. }
    destruct (round_ok p0 (rev (map fst G)) s i cs EI OK HS (Inv_image G s cs (i_prime i) (conj HS HM) (HI _ (or_introl eq_refl)))) as (s' & E & HS' & HM'). rewrite E. cbn [obind].
    assert (HV' : Inv (G ++ [(i_prime i, cs)]) s') by (split; [rewrite map_app, rev_app_distr; exact HS'|rewrite HM', HM; apply imgs_push; apply (HI _ (or_introl eq_refl))]).
    destruct (finished s') eqn:EF; [exists s', true, (G ++ [(i_prime i, cs)]); split; [reflexivity|]; split; [exists (goods ins); rewrite <- app_assoc; reflexivity|]; split; [exact HV'|intros _; exact EF]|].
    destruct (IH (G ++ [(i_prime i, cs)]) s') as (s2 & b & G' & E2 & R2 & V2 & F2); [intros im Him; apply HI; right; exact Him|rewrite <- app_assoc; exact HP|exact HV'|]. exists s2, b, G'. split; [exact E2|]. split; [rewrite <- app_assoc in R2; exact R2|]. split; assumption.
  - cbn [goods] in HI, HP. rewrite EI in HI, HP. unfold round. rewrite EI. cbn [obind]. destruct (finished s) eqn:EF; [exists s, true, G; split; [reflexivity|]; split; [exists (goods ins); reflexivity|]; split; [exact HV|intros _; exact EF]|apply IH; assumption].
Qed.
Hypothesis cs0_ne : cs0 <> [].
Hypothesis pol_ne : forall c, In c cs0 -> c <> [].
Hypothesis range0 : in_range (p0, cs0).
Lemma choose_lt c d : c <> [] -> (choose_coef c d < d + length c)%nat.
Proof.
  revert d. induction c as [|x c IH]; intros d N; [congruence|]. destruct c as [|y c]; [cbn; lia|]. change (choose_coef (x :: y :: c) d) with (if x =? 0 then choose_coef (y :: c) (S d) else d). assert (N2 : y :: c <> []) by discriminate. specialize (IH (S d) N2). destruct (x =? 0); cbn [length] in *; lia.
Qed.
Lemma init_Inv : Inv [] (init_lift p0 cs0).
Proof.
  split; [|apply imgs_nil]. constructor; cbn; try reflexivity; try lia.
  - destruct cs0; [congruence|discriminate].
  - apply Forall_forall. intros g Hg. apply in_map_iff in Hg as (c & <- & Hc). pose proof (choose_lt c 0 (pol_ne c Hc)) as H. constructor; cbn.
    + rewrite !map_length. reflexivity.
    + rewrite map_length. exact H.
    + intros r Hr. apply in_map_iff in Hr as (x & <- & Hx). constructor; [apply (range0 c Hc x Hx)|constructor].
    + congruence.
    + congruence.
  - apply Forall_forall. intros g Hg. apply in_map_iff in Hg as (c & <- & Hc). unfold CI. cbn. lia.
Qed.
(** the residues of coefficient c of polynomial k, with their primes *)
Lemma combine_hist k c (l : list image) z : combine (map (cf k c) l ++ [z]) (map fst l) = map (fun im => (cf k c im, fst im)) l.
Proof. induction l as [|a l IH]; cbn; [reflexivity|]. rewrite IH. reflexivity. Qed.
Lemma Forall2_nth {A B} (R : A -> B -> Prop) a b i x : Forall2 R a b -> nth_error a i = Some x -> exists y, nth_error b i = Some y /\ R x y.
Proof. intros H. revert i. induction H as [|u v a b H1 _ IH]; intros [|i] E; cbn in *; try discriminate; [injection E as <-; eauto|apply IH; exact E]. Qed.
Lemma skipn_map {A B} (f : A -> B) n l : skipn n (map f l) = map f (skipn n l).
Proof. revert n. induction l as [|x l IH]; intros [|n]; cbn; auto. Qed.
Lemma final G s k g : Inv G s -> finished s = true -> nth_error (l_pols s) k = Some g ->
  exists U V q, G = U ++ V /\ U <> [] /\ In q V /\ 0 < g_lm g /\ length (g_qq g) = len k /\
    forall c n d, nth_error (g_qq g) c = Some (n, d) -> d = 1 /\ (forall im, In im U -> agrees (g_lm g) n k c im) /\ verified (g_lm g) n (fst q) (cf k c q).
Proof.
  intros [HS HM] HF HK. unfold finished in HF. rewrite forallb_forall in HF. pose proof (HF g (nth_error_In _ _ HK)) as C2. apply Nat.leb_le in C2. destruct HS as [_ _ _ _ HP _ _]. pose proof (proj1 (Forall_forall _ _) HP g (nth_error_In _ _ HK)) as [A _ _ _ E]. destruct (E ltac:(lia)) as (v & _ & (L1 & L2 & L3) & K). destruct (K C2) as (j & Hj & p & Ep & F). clear E K.
  assert (EI : g_img g = map (fun c => map (cf k c) (rev G) ++ [x0 k c]) (seq 0 (len k))) by (apply (map_nth_error g_img) in HK; rewrite HM in HK; apply nth_error_map_seq in HK as [_ HK]; exact HK).
  assert (RG : rev (map fst G) = map fst (rev G)) by (rewrite map_rev; reflexivity). rewrite RG in L2, L3, Ep. assert (L2' : (v < length (rev G))%nat) by (rewrite map_length in L2; exact L2). clear L2. rename L2' into L2. destruct (nth_error (rev G) j) as [q|] eqn:Eq; [|apply nth_error_None in Eq; lia]. rewrite (map_nth_error fst _ _ Eq) in Ep. injection Ep as <-.
  assert (SP : rev G = firstn v (rev G) ++ skipn v (rev G)) by (symmetry; apply firstn_skipn). exists (rev (skipn v (rev G))), (rev (firstn v (rev G))), q. split; [rewrite <- rev_app_distr, <- SP, rev_involutive; reflexivity|]. split; [intros N; apply (f_equal (@length _)) in N; rewrite rev_length, skipn_length in N; cbn in N; lia|]. split; [apply in_rev; rewrite rev_involutive; rewrite SP in Eq; rewrite nth_error_app1 in Eq by (rewrite firstn_length; lia); apply (nth_error_In _ _ Eq)|]. split; [exact L1|]. split; [rewrite A, EI, map_length, seq_length; reflexivity|].
  intros c n d Hc. destruct (Forall2_nth _ _ _ c _ L3 Hc) as (r & Er & H1 & H2). destruct (Forall2_nth _ _ _ c _ F Hc) as (r' & Er' & x & Ex & Vx). rewrite Er in Er'. injection Er' as <-. cbn [fst snd] in *. rewrite EI in Er. apply nth_error_map_seq in Er as [_ ->]. split; [exact H1|]. split.
  - intros im Him. apply in_rev in Him. unfold agrees. apply H2. rewrite combine_hist, skipn_map. apply (in_map (fun im => (cf k c im, fst im))). exact Him.
  - rewrite nth_error_app1 in Ex by (rewrite map_length; lia). rewrite (map_nth_error (cf k c) _ _ Eq) in Ex. injection Ex as <-. exact Vx.
Qed.
End run.
