(** A parametrisation modulo p: polynomials in each variable, the constants. *)
From Coq Require Import ZArith NArith Arith List Bool Lia Znumtheory Setoid Morphisms Ring.
From Verif Require Import LinSpec MonoSpec MonoSpecProofs GbSpec GbProofs GbIdeal FpSpec FglmSpec ModInvModel NmodModel FpProofs BmProps FglmModel ShapeProofs ParamProofs FglmCore StepSpec ParamIdeal.
Import ListNotations.
Open Scope Z_scope.

Lemma list_choice {A} (Q : nat -> A -> Prop) n : (forall k, (k < n)%nat -> exists x, Q k x) -> exists l, length l = n /\ forall k x, nth_error l k = Some x -> Q k x.
Proof.
  induction n as [|n IH]; intros H; [exists []; split; [reflexivity|intros [|k] x E; discriminate E]|]. destruct IH as (l & Ll & Hl); [intros k Hk; apply H; lia|]. destruct (H n ltac:(lia)) as (x & Hx). exists (l ++ [x]). split; [rewrite app_length; cbn; lia|].
  intros k y E. destruct (Nat.lt_ge_cases k n) as [Hk|Hk]; [rewrite nth_error_app1 in E by lia; exact (Hl k y E)|]. rewrite nth_error_app2 in E by lia. destruct (k - length l)%nat as [|j] eqn:Ek; [|destruct j; discriminate E]. injection E as <-. replace k with n by lia. exact Hx.
Qed.
Lemma nat_choice {A} (Q : nat -> A -> Prop) (x0 : A) n : (forall k, (k < n)%nat -> exists x, Q k x) -> exists f, forall k, (k < n)%nat -> Q k (f k).
Proof.
  intros H. destruct (list_choice Q n H) as (l & Ll & Hl). exists (fun k => nth k l x0). intros k Hk. apply Hl. apply nth_error_nth'. lia.
Qed.
Section RS.
Variables (nv : nat) (p : Z) (G : pf -> Prop) (D : nat) (elim : list Z) (cs : list (list Z)).
Hypothesis NV : (1 <= nv)%nat.
Hypothesis Pp : prime p.
Hypothesis PA : parametrises nv p G D elim cs.
Notation n := (nv - 1)%nat.
Notation I := (ideal nv p G).
Add Ring rs_ring : (pring p) (setoid (peq_eq p) (prext p)).
Let ME : monic_of_degree p elim D.
Proof. destruct PA as (A & B & C & _). split; [exact A|split; [exact B|exact C]]. Qed.
Lemma red_uni g : exists r, (length r <= D)%nat /\ I (fun m => uni_at nv n g m - uni_at nv n r m).
Proof.
  destruct (nf_of_monic p Pp elim D ME) as [NF HD]. destruct (ndivrem_ok p Pp (norm p g) elim D (nf_norm p Pp g) NF HD) as (q & r & _ & EQ & DR & _ & NR). exists (firstn D r). split; [rewrite firstn_length; lia|].
  assert (RR : FpSpec.peq p (firstn D r) r).
  { intros i. destruct (Nat.lt_ge_cases i D) as [Hi|Hi].
    - unfold pc. destruct (Nat.lt_ge_cases i (length r)) as [Hl|Hl]; [|rewrite !nth_overflow by (rewrite ?firstn_length; lia); reflexivity]. rewrite <- (firstn_skipn D r) at 2. rewrite app_nth1 by (rewrite firstn_length; lia). reflexivity.
    - rewrite pc_over by (rewrite firstn_length; lia). symmetry. apply DR. exact Hi. }
  eapply I_eq; [apply (uni_mul nv p G NV q elim); apply PA|]. intros m _.
  assert (X : FpSpec.peq p g (padd (FpSpec.pmul q elim) r)) by (rewrite <- EQ; symmetry; apply (norm_peq p Pp)).
  pose proof (uni_peq nv p NV g _ m X) as Y. rewrite (uni_padd nv NV) in Y. pose proof (uni_peq nv p NV _ _ m RR) as W. destruct Y as [y Y], W as [w W]. unfold eqp. exists (y - w). cbv beta. lia.
Qed.
Fixpoint comb (c : list Z) (L : list (list Z)) : list Z := match c, L with x :: c', r :: L' => padd (pscal x r) (comb c' L') | _, _ => [] end.
Lemma pc_comb c : forall L j, pc (comb c L) j = lc c (map pc L) j.
Proof. induction c as [|x c IH]; intros [|r L] j; cbn [comb map lc]; try apply pc_nil. rewrite pc_padd, pc_pscal, IH. reflexivity. Qed.
Lemma comb_in k c : forall L s, length c = length L -> (forall i r, nth_error L i = Some r -> I (fun m => cf [(1, xpow nv k (s + i))] m - uni_at nv n r m)) ->
  I (fun m => cf (map (fun j => (nth (j - s) c 0, xpow nv k j)) (seq s (length c))) m - uni_at nv n (comb c L) m).
Proof.
  induction c as [|x c IH]; intros [|r L] s LL H; try discriminate LL.
  - apply lspan_zero. intros m _. cbn [length seq map cf comb]. unfold pzero. rewrite (uni_apply nv NV). cbn [apply_at]. reflexivity.
  - pose proof (H 0%nat r eq_refl) as H0. rewrite Nat.add_0_r in H0. assert (H1 := IH L (S s) ltac:(cbn in LL; lia) ltac:(intros i q Hq; replace (S s + i)%nat with (s + S i)%nat by lia; apply (H (S i)); exact Hq)).
    eapply I_eq; [apply lspan_add; [apply (lspan_scale nv p _ x _ H0)|exact H1]|]. intros m _. cbv beta. cbn [comb length seq map cf fst snd]. rewrite (uni_padd nv NV), (uni_pscal nv NV), Nat.sub_diag. change (nth 0 (x :: c) 0) with x.
    assert (E : cf (map (fun j => (nth (j - s) (x :: c) 0, xpow nv k j)) (seq (S s) (length c))) m = cf (map (fun j => (nth (j - S s) c 0, xpow nv k j)) (seq (S s) (length c))) m).
    { f_equal. apply map_ext_in. intros j Hj. apply in_seq in Hj. replace (j - s)%nat with (S (j - S s)) by lia. reflexivity. }
    rewrite E. exists 0. destruct (mono_dec (xpow nv k s) m); ring.
Qed.
Lemma no_free k : ~ free_variable nv p G k.
Proof.
  intros [Hk HF]. destruct (list_choice (fun i r => (length r <= D)%nat /\ I (fun m => cf [(1, xpow nv k i)] m - uni_at nv n r m)) (S D)) as (L & LL & HL).
  { intros i _. destruct (mono_uni nv p G cs NV ltac:(intros q Hq; apply PA; exact Hq) _ (xpow nv k i) (xpow_len nv k i) (le_n _)) as (g & Hg). destruct (red_uni g) as (r & Lr & Hr). exists r. split; [exact Lr|]. eapply I_eq; [apply lspan_add; [exact Hg|exact Hr]|]. intros m _. exists 0. cbv beta. set (a := cf _ m). set (b := uni_at nv n g m). set (b2 := uni_at nv n r m). lia. }
  destruct (dependent p Pp D (map pc L)) as (c & Lc & (z & Hz & Nz) & HC); [rewrite map_length; lia|]. rewrite map_length in Lc.
  assert (ZC : FpSpec.peq p (comb c L) []).
  { intros j. rewrite pc_nil, pc_comb. destruct (Nat.lt_ge_cases j D) as [Hj|Hj]; [apply HC; exact Hj|]. clear - HL Hj. revert L HL. assert (X : forall L : list (list Z), (forall r, In r L -> (length r <= D)%nat) -> eqp p (lc c (map pc L) j) 0).
    { induction c as [|x c IH]; intros [|r L] H; cbn [map lc]; try reflexivity. rewrite (pc_over r) by (specialize (H r (or_introl eq_refl)); lia). rewrite IH by (intros q Hq; apply H; right; exact Hq). exists 0. ring. }
    intros L HL. apply X. intros r Hr. apply In_nth_error in Hr as (i & Hi). apply (HL i r Hi). }
  assert (IC : I (uni_at nv k c)).
  { pose proof (comb_in k c L 0 Lc ltac:(intros i r Hi; cbn [Nat.add]; apply (HL i r Hi))) as X. eapply I_eq; [exact X|]. intros m _. cbv beta. pose proof (uni_peq nv p NV _ _ m ZC) as Y. rewrite (uni_apply nv NV []) in Y. cbn [apply_at] in Y. destruct Y as [y Y]. set (b := uni_at nv n (comb c L) m) in *.
    rewrite (map_ext (fun j => (nth (j - 0) c 0, xpow nv k j)) (fun j => (nth j c 0, xpow nv k j))) by (intros j; rewrite Nat.sub_0_r; reflexivity). change (cf (map (fun j => (nth j c 0, xpow nv k j)) (seq 0 (length c))) m) with (uni_at nv k c m). exists y. lia. }
  apply In_nth with (d := 0) in Hz as (i & _ & <-). apply Nz. apply (HF c IC).
Qed.
Lemma no_unit : (0 < D)%nat -> generates_last nv p G elim -> ~ unit_ideal nv p G.
Proof.
  intros D0 GL U. assert (U1 : I (uni_at nv n [1])). { eapply I_eq; [exact U|]. intros m _. rewrite (uni_apply nv NV). cbn [apply_at]. unfold ParamProofs.X. rewrite (xpow_0 nv). exists 0. set (a := cf [(1, mone nv)] m). change (cf [(1, mone nv)] m) with a. ring. }
  apply GL in U1. destruct U1 as (q & E). destruct (nf_of_monic p Pp elim D ME) as [_ HD]. destruct (div_unique p Pp q [] elim D [] [1] HD) as [_ K].
  - intros i _. rewrite pc_nil. reflexivity.
  - intros i Hi. rewrite pc_over by (cbn; lia). reflexivity.
  - transitivity (FpSpec.pmul q elim); [ring|]. rewrite <- E. ring.
  - specialize (K 0%nat). cbn in K. apply (one_ne p Pp). symmetry. exact K.
Qed.
End RS.
