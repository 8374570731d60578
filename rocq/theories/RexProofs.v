(** A parametrisation modulo one good prime lifts: relations between monomials modulo the ideal, over the rationals and modulo p. *)
From Coq Require Import ZArith NArith Arith List Bool Lia Znumtheory Setoid Morphisms Ring.
From Verif Require Import LinSpec MonoSpec MonoSpecProofs GbSpec GbProofs GbIdeal FpSpec FglmSpec ModInvModel NmodModel FpProofs BmProps FglmModel ShapeProofs ParamProofs FglmCore StepSpec ParamIdeal F4Rows F4Props QgbSpec QgbProofs QgbExist RurSpec RurProofs RurLift RurStep RexFp.
Import ListNotations.
Open Scope Z_scope.
Notation poly := (list (Z * mono)) (only parsing).

Lemma cf_combine_out (c : list Z) (M : list mono) m : ~ In m M -> cf (combine c M) m = 0.
Proof. intros H. apply cf_not_in. intros [a u] Ht E. apply H. cbn in E. subst u. exact (in_combine_r _ _ _ _ Ht). Qed.
Lemma cf_combine_at : forall (c : list Z) (M : list mono) i, NoDup M -> length c = length M -> (i < length M)%nat -> cf (combine c M) (nth i M []) = nth i c 0.
Proof.
  induction c as [|x c IH]; intros [|u M] i N L Hi; try discriminate L; [cbn in Hi; lia|]. inversion N as [|? ? N1 N2]; subst. cbn [combine cf fst snd]. destruct i as [|i]; cbn [nth].
  - destruct (mono_dec u u); [|congruence]. rewrite cf_combine_out by exact N1. ring.
  - cbn in Hi. destruct (mono_dec u (nth i M [])) as [E|_]; [exfalso; apply N1; rewrite E; apply nth_In; lia|]. apply IH; [exact N2|cbn in L; lia|lia].
Qed.
Lemma combine_uni nv k (c : list Z) : forall s, combine c (map (xpow nv k) (seq s (length c))) = map (fun j => (nth (j - s) c 0, xpow nv k j)) (seq s (length c)).
Proof.
  induction c as [|x c IH]; intros s; [reflexivity|]. cbn [length seq map combine]. rewrite IH, Nat.sub_diag. f_equal. apply map_ext_in. intros j Hj. apply in_seq in Hj. replace (j - s)%nat with (S (j - S s)) by lia. reflexivity.
Qed.
Lemma cf_combine_uni nv k c m : cf (combine c (map (xpow nv k) (seq 0 (length c)))) m = uni_at nv k c m.
Proof. rewrite combine_uni. unfold uni_at. f_equal. apply map_ext. intros j. rewrite Nat.sub_0_r. reflexivity. Qed.
Lemma uni_scale nv k t (c : list Z) m : uni_at nv k (map (Z.mul t) c) m = t * uni_at nv k c m.
Proof.
  unfold uni_at. rewrite map_length. generalize (seq 0 (length c)). intros l. induction l as [|j l IH]; cbn [map cf fst snd]; [ring|]. rewrite IH. replace (nth j (map (Z.mul t) c) 0) with (t * nth j c 0); [destruct (mono_dec (xpow nv k j) m); ring|].
  rewrite <- (map_nth (Z.mul t)). f_equal. ring.
Qed.

Section RX.
Variables (nv : nat) (lt : mono -> mono -> Prop).
Hypothesis MO : mono_order nv lt.
Variables (p : Z) (G Gp : list poly).
Hypothesis Pp : prime p.
Hypothesis HG : Forall (zsorted nv lt) G.
Hypothesis GB : qgroebner nv lt G.
Hypothesis IM : Forall2 (monic_image nv lt p) G Gp.
Hypothesis LC : forall g, In g G -> ~ (p | lcoef g).
Hypothesis GR : groebner nv lt p (pfs Gp).

(** an element of the ideal over the rationals with integer coefficients is in the ideal modulo p *)
Lemma mod_of_q f : fin nv f -> qideal nv (pfs G) f -> ideal nv p (pfs Gp) f.
Proof.
  intros Ff Hf. destruct (fin_lead nv lt MO f Ff) as [Z0|(m & HL)]; [apply lspan_zero; intros m Lm; rewrite (Z0 m Lm); reflexivity|]. assert (Lm : length m = nv) by apply HL.
  pose proof (mo_wf nv lt MO m Lm) as A. revert f Ff Hf HL. induction A as [m _ IH]. intros f Ff Hf HL. destruct (GB f m Hf HL) as (g & Hg & Dv).
  pose proof HG as HG'. rewrite Forall_forall in HG'. pose proof (HG' g Hg) as Zg. destruct (red_step nv lt MO f m g Ff HL Zg Dv) as (Lu & Eu & Ff' & C). set (u := mquo m (lead g)) in *. set (f' := fun x => lcoef g * f x - f m * GbSpec.pmul u (cf g) x) in *.
  assert (UG : ideal nv p (pfs Gp) (GbSpec.pmul u (cf g))) by (apply (gens_mod nv lt p G Gp IM); apply ideal_mul; [exact Lu|]; apply ideal_gen; exists g; split; [exact Hg|reflexivity]).
  assert (F'p : ideal nv p (pfs Gp) f').
  { destruct C as [Z0|(m' & HL' & Lm' & Hm')]; [apply lspan_zero; intros x Lx; unfold f'; rewrite (Z0 x Lx); reflexivity|]. apply (IH m' (conj Lm' (conj Lm Hm')) Lm' f' Ff'); [|exact HL']. apply qideal_lin; [exact Hf|apply qideal_gen; assumption]. }
  apply (lspan_unit nv p _ (lcoef g) f Pp (LC g Hg)). eapply I_eq; [apply lspan_add; [exact F'p|apply (lspan_scale nv p _ (f m) _ UG)]|]. intros x _. unfold f'. exists 0. ring.
Qed.

Variables (D : nat) (elim : list Z) (cp : list (list Z)).
Hypothesis NV : (1 <= nv)%nat.
Hypothesis PA : parametrises nv p (pfs Gp) D elim cp.
Notation n := (nv - 1)%nat.

Lemma comb_list (c : list Z) : forall (L : list mono) rs, length c = length L -> length rs = length L -> (forall i m r, nth_error L i = Some m -> nth_error rs i = Some r -> ideal nv p (pfs Gp) (fun u => cf [(1, m)] u - uni_at nv n r u)) ->
  ideal nv p (pfs Gp) (fun u => cf (combine c L) u - uni_at nv n (comb c rs) u).
Proof.
  induction c as [|x c IH]; intros [|m L] [|r rs] E1 E2 H; try discriminate E1; try discriminate E2.
  - apply lspan_zero. intros u _. cbn [combine cf comb]. unfold pzero. rewrite (uni_apply nv NV). cbn [apply_at]. reflexivity.
  - pose proof (H 0%nat m r eq_refl eq_refl) as H0. pose proof (IH L rs ltac:(cbn in E1; lia) ltac:(cbn in E2; lia) (fun i => H (S i))) as H1.
    eapply I_eq; [apply lspan_add; [apply (lspan_scale nv p _ x _ H0)|exact H1]|]. intros u _. cbv beta. cbn [comb combine cf fst snd]. rewrite (uni_padd nv NV), (uni_pscal nv NV). exists 0. destruct (mono_dec m u); ring.
Qed.
(** at most D monomials are standard *)
Lemma std_bound (L : list mono) : NoDup L -> (forall m, In m L -> length m = nv /\ forall g, In g G -> ~ mdvd (lead g) m) -> (length L <= D)%nat.
Proof.
  intros ND HL. destruct (Nat.le_gt_cases (length L) D) as [K|K]; [exact K|exfalso].
  assert (CO : forall k, (k < n)%nat -> ideal nv p (pfs Gp) (coord_poly nv k n (nth k cp []))) by (intros k Hk; apply PA; exact Hk).
  destruct (list_choice (fun i r => (length r <= D)%nat /\ ideal nv p (pfs Gp) (fun u => cf [(1, nth i L [])] u - uni_at nv n r u)) (length L)) as (rs & Lr & Hr).
  { intros i Hi. assert (Li : length (nth i L []) = nv) by (apply HL; apply nth_In; exact Hi). destruct (mono_uni nv p (pfs Gp) cp NV CO _ _ Li (le_n _)) as (g & Hg). destruct (red_uni nv p (pfs Gp) D elim cp NV Pp PA g) as (r & R1 & R2). exists r. split; [exact R1|].
    eapply I_eq; [apply lspan_add; [exact Hg|exact R2]|]. intros u _. exists 0. cbv beta. match goal with |- ?a - ?r - (?b - ?g + (?g2 - ?r2)) = _ => change b with a; change g2 with g; change r2 with r; ring end. }
  destruct (dependent p Pp D (map pc rs)) as (c & Lc & (x & Hx & Nx) & HZ); [rewrite map_length; lia|]. rewrite map_length in Lc.
  assert (IC : ideal nv p (pfs Gp) (cf (combine c L))).
  { assert (Q := comb_list c L rs ltac:(lia) Lr). eapply I_eq; [apply Q; intros i m r E1 E2; pose proof (Hr i r E2) as [_ Z]; rewrite <- (nth_error_nth _ _ [] E1); exact Z|]. intros u _.
    assert (Z0 : FpSpec.peq p (comb c rs) []). { intros j. rewrite pc_comb, pc_nil. destruct (Nat.lt_ge_cases j D) as [Hj|Hj]; [apply HZ; exact Hj|].
      assert (ZZ : forall c l, (forall r, In r l -> (length r <= D)%nat) -> lc c (map pc l) j = 0). { clear -Hj. induction c as [|y c IH]; intros [|r l] H; cbn [map lc]; try reflexivity. rewrite IH by (intros q Hq; apply H; right; exact Hq). rewrite pc_over by (specialize (H r (or_introl eq_refl)); lia). ring. }
      rewrite ZZ; [reflexivity|]. intros r Hr'. apply In_nth_error in Hr' as (i & E). apply (Hr i r E). }
    pose proof (uni_peq nv p NV _ _ u Z0) as W. replace (uni_at nv n [] u) with 0 in W by (rewrite (uni_apply nv NV); reflexivity). destruct W as [w W]. exists w. lia. }
  destruct (lead_exists nv lt p MO (combine c L)) as [Z0|(m & HLm)].
  { intros [a m] Ht. cbn [snd]. apply HL. exact (in_combine_r _ _ _ _ Ht). }
  - apply In_nth_error in Hx as (i & Ei). assert (Hi : (i < length L)%nat) by (rewrite <- Lr, <- Lc; apply nth_error_Some; rewrite Ei; discriminate). apply Nx. specialize (Z0 (nth i L []) (proj1 (HL _ (nth_In _ _ Hi)))). rewrite cf_combine_at in Z0; [|exact ND|lia|exact Hi]. rewrite (nth_error_nth _ _ 0 Ei) in Z0. exact Z0.
  - assert (InM : In m L). { destruct (in_dec mono_dec m L) as [I0|I0]; [exact I0|]. exfalso. destruct HLm as (_ & N & _). apply N. rewrite cf_combine_out by exact I0. reflexivity. }
    destruct (GR _ _ IC HLm) as (g' & l & (f & Hf & ->) & Il & Dv). destruct (im_bwd nv lt p G Gp IM f Hf) as (g & Hg & M). pose proof (im_good nv lt p g f M) as [_ El].
    assert (IL2 : is_lead nv lt p (cf f) (lead g)).
    { destruct M as (SP & (r & Er) & _). destruct f as [|t f]; [discriminate Er|]. injection Er as -> ->. pose proof SP as (_ & Q & _). destruct (Q _ (or_introl eq_refl)) as [Q1 Q2]. cbn [fst snd] in *. split; [exact Q2|]. pose proof (sp_cf nv lt p MO _ (1, lead g) SP (or_introl eq_refl)) as W. cbn [fst snd] in W. rewrite W. split; [intros [z Kz]; assert (z <= 0 \/ 1 <= z) as [?|?] by lia; nia|].
      intros m' Lm' Hm'. rewrite (sp_above nv lt p MO _ _ m' SP Hm' Lm'). reflexivity. }
    pose proof (lead_unique nv lt p MO _ _ _ Il IL2) as ->. exact (proj2 (HL m InM) g Hg Dv).
Qed.

(** any D + 1 monomials are dependent over the rationals modulo the ideal *)
Lemma qdep (M : list mono) : (D < length M)%nat -> (forall m, In m M -> length m = nv) -> exists c, length c = length M /\ (exists x, In x c /\ x <> 0) /\ qideal nv (pfs G) (cf (combine c M)).
Proof.
  intros LM HM. destruct (list_choice (fun i (dr : Z * poly) => fst dr <> 0 /\ ideal nv 0 (pfs G) (fun x => fst dr * cf [(1, nth i M [])] x - cf (snd dr) x) /\
    forall s, In s (snd dr) -> length (snd s) = nv /\ forall g, In g G -> ~ mdvd (lead g) (snd s)) (length M)) as (rs & Lr & Hr).
  { intros i Hi. set (m := nth i M []). assert (Lm : length m = nv) by (apply HM; apply nth_In; exact Hi). assert (F1 : fin nv (cf [(1, m)])) by (apply fin_cf; intros t [<-|[]]; exact Lm).
    assert (HL : is_lead nv lt 0 (cf [(1, m)]) m). { split; [exact Lm|]. split; [change (~ eqp 0 (single 1 m m) 0); rewrite single_at, eqp_zero; lia|]. intros m' _ Hm'. change (eqp 0 (single 1 m m') 0). rewrite single_out; [reflexivity|]. intros ->. exact (lt_irr nv lt MO _ Hm'). }
    destruct (full_rem nv lt MO G HG m Lm _ F1 HL) as (d & r & Nd & Id & Sr & Q). exists (d, r). cbn [fst snd]. split; [exact Nd|]. split; [exact Id|]. intros s Hs. split; [|apply (Q s Hs)]. destruct Sr as [->|Sr]; [destruct Hs|]. apply (proj1 (proj2 Sr) s Hs). }
  set (L := nodup mono_dec (flat_map (fun dr : Z * poly => map snd (snd dr)) rs)).
  assert (HL : forall m, In m L -> length m = nv /\ forall g, In g G -> ~ mdvd (lead g) m).
  { intros m Hm. apply nodup_In in Hm. apply in_flat_map in Hm as (dr & Hd & Hm). apply in_map_iff in Hm as (s & <- & Hs). apply In_nth_error in Hd as (i & Ei). destruct (Hr i dr Ei) as (_ & _ & Q). exact (Q s Hs). }
  pose proof (std_bound L (NoDup_nodup _ _) HL) as LD.
  destruct (zdependent (length L) (map (fun (dr : Z * poly) k => cf (snd dr) (nth k L [])) rs)) as (cs & Lc & (x & Hx & Nx) & HZ); [rewrite map_length; lia|]. rewrite map_length in Lc.
  assert (ZR : forall m, lc cs (map (fun (dr : Z * poly) (_ : nat) => cf (snd dr) m) rs) 0 = 0).
  { intros m. destruct (in_dec mono_dec m L) as [I0|I0].
    - apply (In_nth _ _ []) in I0 as (k & Hk & <-). specialize (HZ k Hk). rewrite <- HZ. clear. clearbody L. revert rs. induction cs as [|y cs IH]; intros [|r rs]; cbn [map lc]; try reflexivity. rewrite IH. reflexivity.
    - assert (Q : forall dr, In dr rs -> cf (snd dr) m = 0). { intros dr Hd. apply cf_not_in. intros s Hs <-. apply I0. apply nodup_In. apply in_flat_map. exists dr. split; [exact Hd|apply in_map; exact Hs]. }
      clear -Q. revert rs Q. induction cs as [|y cs IH]; intros [|r rs] Q; cbn [map lc]; try reflexivity. rewrite (Q r (or_introl eq_refl)), IH by (intros dr Hd; apply Q; right; exact Hd). ring. }
  exists (map (fun z => fst z * fst (snd z)) (combine cs rs)). split; [rewrite map_length, combine_length; lia|]. split.
  - apply In_nth_error in Hx as (i & Ei). assert (Hi : (i < length rs)%nat) by (rewrite <- Lc; apply nth_error_Some; rewrite Ei; discriminate). destruct (nth_error rs i) as [dr|] eqn:Er; [|apply nth_error_None in Er; lia]. exists (x * fst dr). split.
    + apply in_map_iff. exists (x, dr). split; [reflexivity|]. apply (nth_error_In _ i). revert Ei Er. clear. revert cs rs. induction i as [|i IH]; intros [|a cs] [|b rs] E1 E2; try discriminate E1; try discriminate E2; cbn in *; [congruence|]. apply IH; assumption.
    + destruct (Hr i dr Er) as (N & _). intros K. apply Z.mul_eq_0 in K as [K|K]; contradiction.
  - apply qideal_of. assert (Q : ideal nv 0 (pfs G) (fun m => cf (combine (map (fun z => fst z * fst (snd z)) (combine cs rs)) M) m - lc cs (map (fun (dr : Z * poly) (_ : nat) => cf (snd dr) m) rs) 0)).
    { clear -Lc Lr Hr. assert (Hr' : forall i m dr, nth_error M i = Some m -> nth_error rs i = Some dr -> ideal nv 0 (pfs G) (fun x => fst dr * cf [(1, m)] x - cf (snd dr) x)). { intros i m dr E1 E2. destruct (Hr i dr E2) as (_ & Q & _). rewrite <- (nth_error_nth _ _ [] E1). exact Q. }
      clear Hr. revert rs M Lc Lr Hr'. induction cs as [|c cs IH]; intros [|dr rs] [|m M] E1 E2 H; try discriminate E1; try discriminate E2.
      - apply lspan_zero. intros u _. reflexivity.
      - pose proof (H 0%nat m dr eq_refl eq_refl) as H0. pose proof (IH rs M ltac:(cbn in E1; lia) ltac:(cbn in E2; lia) (fun i => H (S i))) as H1. eapply I_eq; [apply lspan_add; [apply (lspan_scale nv 0 _ c _ H0)|exact H1]|]. intros u _. cbv beta. cbn [combine map cf fst snd lc]. apply eqp_zero. destruct (mono_dec m u); ring. }
    eapply I_eq; [exact Q|]. intros m _. cbv beta. rewrite ZR. apply eqp_zero. ring.
Qed.

Hypothesis GL : generates_last nv p (pfs Gp) elim.
Let HD : hdeg p elim D.
Proof. apply (nf_of_monic p Pp elim D). destruct PA as (A & B & C & _). split; [exact A|split; [exact B|exact C]]. Qed.
Lemma fin_uni k c : fin nv (uni_at nv k c).
Proof. apply fin_cf. intros t Ht. apply in_map_iff in Ht as (j & <- & _). apply (xpow_len nv). Qed.
(** the first D powers of the last variable are independent over the rationals *)
Lemma qindep c : (length c <= D)%nat -> qideal nv (pfs G) (uni_at nv n c) -> forall i, nth i c 0 = 0.
Proof.
  intros Lc Hc. assert (K : (forall x, In x c -> x = 0) \/ exists x, In x c /\ x <> 0).
  { clear. induction c as [|a c IH]; [left; intros x []|]. destruct (Z.eq_dec a 0) as [E|E]; [|right; exists a; split; [left; reflexivity|exact E]]. destruct IH as [A|(x & A & B)]; [left; intros x [<-|I]; auto|right; exists x; split; [right; exact A|exact B]]. }
  destruct K as [Z0|NZ]; [intros i; destruct (Nat.lt_ge_cases i (length c)) as [Hi|Hi]; [apply Z0; apply nth_In; exact Hi|apply nth_overflow; exact Hi]|exfalso].
  destruct (primitive p c ltac:(destruct Pp; assumption) NZ) as (t & c' & Nt & -> & (y & Hy & Ny)). rewrite map_length in Lc.
  assert (Hc' : qideal nv (pfs G) (uni_at nv n c')) by (apply (qideal_unscale nv _ t _ Nt); eapply qideal_ext; [exact Hc|]; intros m _; apply uni_scale).
  pose proof (mod_of_q _ (fin_uni n c') Hc') as Hp. apply GL in Hp.
  destruct (dlt_hdeg p Pp c' D ltac:(apply (dlt_le p c' (length c')); [exact Lc|apply dlt_len])) as [Z0|(j & Hj & Hv)]; [|pose proof (pdvd_deg p Pp elim c' D j Hp HD Hv); lia].
  apply (In_nth _ _ 0) in Hy as (i & _ & <-). apply Ny. destruct (Z0 i) as [z Hz]. rewrite pc_nil in Hz. exists z. unfold pc in Hz. lia.
Qed.
(** the eliminating polynomial *)
Lemma exists_elim : exists E, length E = S D /\ ~ (p | nth D E 0) /\ (exists a, FpSpec.peq p E (pscal a elim)) /\ qideal nv (pfs G) (uni_at nv n E).
Proof.
  destruct (qdep (map (xpow nv n) (seq 0 (S D)))) as (c & Lc & NZ & Hc); [rewrite map_length, seq_length; lia|intros m Hm; apply in_map_iff in Hm as (j & <- & _); apply (xpow_len nv)|]. rewrite map_length, seq_length in Lc.
  destruct (primitive p c ltac:(destruct Pp; assumption) NZ) as (t & c' & Nt & -> & (y & Hy & Ny)). rewrite map_length in Lc.
  assert (Hc' : qideal nv (pfs G) (uni_at nv n c')) by (apply (qideal_unscale nv _ t _ Nt); eapply qideal_ext; [exact Hc|]; intros m _; rewrite <- uni_scale, <- cf_combine_uni, map_length, Lc; reflexivity).
  pose proof (mod_of_q _ (fin_uni n c') Hc') as Hp. apply GL in Hp. exists c'. split; [exact Lc|].
  assert (Dc : dlt p c' (S D)) by (rewrite <- Lc; apply dlt_len). assert (NC : ~ FpSpec.peq p c' []). { intros Z0. apply (In_nth _ _ 0) in Hy as (i & _ & <-). apply Ny. destruct (Z0 i) as [z Hz]. rewrite pc_nil in Hz. exists z. unfold pc in Hz. lia. }
  assert (HC : hdeg p c' D). { destruct (dlt_hdeg p Pp c' (S D) Dc) as [Z0|(j & Hj & Hv)]; [contradiction|]. pose proof (pdvd_deg p Pp elim c' D j Hp HD Hv). replace D with j by lia. exact Hv. }
  split; [intros [z Kz]; apply HC; exists z; unfold pc; lia|]. split; [|exact Hc'].
  destruct Hp as (q & Eq). exists (pc q 0). pose proof (hdeg_ext p _ _ _ Eq HC) as HQ. destruct (hdeg_factor p Pp q elim D HQ) as (i & j & Hi & Hj & Sij). pose proof (hdeg_uniq p elim D j HD Hj). assert (i = 0%nat) by lia. subst i.
  rewrite Eq. assert (Q0 : FpSpec.peq p q [pc q 0]). { intros [|i]; [reflexivity|]. destruct Hi as [A _]. rewrite (A (S i)) by lia. unfold pc. destruct i; reflexivity. }
  rewrite pscal_pmul. rewrite Q0 at 1. reflexivity.
Qed.
(** the coordinates *)
Lemma exists_coord k : exists c e, e <> 0 /\ (length c <= D)%nat /\ qideal nv (pfs G) (fun m => e * cf [(1, xpow nv k 1)] m + uni_at nv n c m).
Proof.
  destruct (qdep (xpow nv k 1 :: map (xpow nv n) (seq 0 D))) as (c & Lc & (x & Hx & Nx) & Hc); [cbn [length]; rewrite map_length, seq_length; lia|intros m [<-|Hm]; [apply (xpow_len nv)|apply in_map_iff in Hm as (j & <- & _); apply (xpow_len nv)]|].
  cbn [length] in Lc. rewrite map_length, seq_length in Lc. destruct c as [|e c]; [discriminate Lc|]. assert (Lc' : length c = D) by (cbn in Lc; lia).
  assert (Hc' : qideal nv (pfs G) (fun m => e * cf [(1, xpow nv k 1)] m + uni_at nv n c m)). { eapply qideal_ext; [exact Hc|]. intros m _. cbn [combine cf fst snd]. rewrite <- Lc', cf_combine_uni. destruct (mono_dec (xpow nv k 1) m); ring. }
  exists c, e. split; [|split; [lia|exact Hc']]. intros ->. apply Nx. destruct Hx as [<-|Hx]; [reflexivity|]. apply (In_nth _ _ 0) in Hx as (i & _ & <-). apply qindep; [lia|]. eapply qideal_ext; [exact Hc'|]. intros m _. cbv beta. ring.
Qed.
End RX.
