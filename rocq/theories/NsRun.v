(** The change of order when the elimination polynomial is not squarefree of full degree: the run up to the answer. *)
From Coq Require Import ZArith NArith Arith List Bool Lia Znumtheory Setoid Morphisms Ring.
From Verif Require Import LinSpec MonoSpec MonoSpecProofs GbSpec GbProofs GbIdeal PointSpec PointProofs.
From Verif Require Import FpSpec FglmSpec ModInvModel NmodModel FpProofs BmModel BmProofs BmProps FglmModel MatVecProofs SeqProofs HankelProofs ShapeProofs ParamProofs FglmCore FglmProps StepSpec ParamIdeal RexFp NumProofs NsSpec NsModel NsProofs NsSeq NsPoints.
Import ListNotations.
Open Scope Z_scope.

(** The situation of the change of order: p is an odd prime for which the products fit, FLINT's functions meet their contracts, [m] holds the matrix of
    the multiplication by the last variable modulo the ideal of G in the basis b, with the variables and the squares of variables at the places
    recorded, and [v] holds the start vector. *)
Record ns_setting (p : Z) (sqf : list Z -> bool) (sqpart : list Z -> list Z) (xg : list Z -> list Z -> list Z * list Z * list Z) (al : nat -> nat) (m : sp_mat)
    (squ : nat -> nat) (lam : nat -> Z) (nv bs : nat) (lin : nat -> bool) (eqs : list (list Z)) (v old : list Z) (M : mat) (G : pf -> Prop) (b : nat -> pf) (v0 : nat -> Z) : Prop := {
  ns_p : prime p; ns_odd : p <> 2; ns_pu : p < 1518500213; ns_sqf : sqf_contract p sqf sqpart; ns_part : part_contract p sqpart; ns_xg : xgcd_contract p xg;
  ns_lam : forall k, 1 <= lam k < p; ns_mat : represents p m M; ns_nv : (1 <= nv)%nat; ns_D : (2 <= m_ncols m)%nat; ns_mm : mult_matrix nv p G (m_ncols m) b M;
  ns_ind : independent nv p G (m_ncols m) b; ns_var : var_basis nv lin b; ns_squ : square_basis nv (m_ncols m) squ b;
  ns_bs : (length (filter (fun k => negb (lin k)) (seq 0 (nv - 1))) < bs)%nat; ns_bn : (bs <= nv)%nat; ns_bd : (bs < m_ncols m)%nat;
  ns_eqs : Forall2 (linear_row nv p G) (filter lin (seq 0 (nv - 1))) eqs; ns_old : length old = m_ncols m; ns_v : holds_vec p (m_ncols m) v v0 }.

(** V is the minimal polynomial of the sequence, and generates the polynomials of the ideal in the last variable: the start vector is a lucky one. *)
Definition lucky (p : Z) (nv : nat) (G : pf -> Prop) (D : nat) (M : mat) (v0 : nat -> Z) (V : list Z) (w : nat) : Prop :=
  monic_of_degree p V w /\ minimal_polynomial p V (fun i => mpow D M v0 i 0%nat) /\ generates_last nv p G V.
(** the numbers drawn for the verification avoid the coordinates: lambda - c_q is invertible modulo E *)
Definition lam_ok (p : Z) (nv : nat) (lin : nat -> bool) (squ : nat -> nat) (lam : nat -> Z) (E : list Z) (cs : list (list Z)) : Prop :=
  forall q, (q < nv - 1)%nat -> lin q = false -> squ q <> 0%nat -> forall g k, hdeg p g k -> pdvd p g E -> pdvd p g (psub [lam (nv - 2 - q)%nat] (nth q cs [])) -> k = 0%nat.

Section Answer.
Variables (k : kernel) (p : Z) (sqf : list Z -> bool) (sqpart : list Z -> list Z) (xg : list Z -> list Z -> list Z * list Z * list Z) (al : nat -> nat) (m : sp_mat)
  (squ : nat -> nat) (lam : nat -> Z) (nv bs : nat) (lin : nat -> bool) (eqs : list (list Z)) (v old : list Z) (M : mat) (G : pf -> Prop) (b : nat -> pf) (v0 : nat -> Z).
Hypothesis ST : ns_setting p sqf sqpart xg al m squ lam nv bs lin eqs v old M G b v0.
Notation D := (m_ncols m).
Notation s := (fun i => mpow D M v0 i 0%nat).
Notation sq := (square_entry k p m squ nv lin v old).
Notation run := (fglm_all k p sqf sqpart xg al m squ lam nv bs lin eqs v old).
Add Ring pr_np : (pring p) (setoid (peq_eq p) (prext p)).

(** the run until the elimination polynomial *)
Lemma until V w : monic_of_degree p V w -> minimal_polynomial p V s -> ~ (w = D /\ squarefree p V) ->
  exists res, gen_res k p m sq nv bs v old = Some res /\ table p m M bs (2 * nv * D) v0 (2 * D) res /\
    let V' := if (w =? 0)%nat then [0; 1] else V in
    run = let? r := non_shape p xg al V' (sqpart V') res D bs lin squ lam nv eqs in Some (NonShape r).
Proof.
  intros MV MIN NS. destruct ST as [Hp N2 PU SQ PC XG LM R NV D2 MM IND VB SB BS BN BD EQ LO HV]. pose proof (p2 p Hp) as P2. assert (B1 : (1 <= bs)%nat) by lia. assert (D1 : (1 <= D)%nat) by lia.
  destruct (minpoly_cases k p sqf sqpart m sq nv bs v old M v0 Hp PU SQ R NV D1 B1 BN (or_introl BD) LO HV) as (res & pts & B & e & w' & E1 & E2 & Ep & E3 & MB & Lw & MB' & C).
  assert (SZ : (2 * bs * D <= 2 * nv * D)%nat) by nia.
  destruct (gen_res_ok k p m M sq nv bs _ v0 P2 PU R B1 (or_introl BD) D1 eq_refl SZ v old LO HV) as (res' & E' & T). rewrite E1 in E'. injection E' as <-.
  exists res. split; [exact E1|]. split; [exact T|].
  assert (V = bV1 B) as -> by (apply (C47_unique p s V (bV1 B) w w'); assumption). assert (w' = w) by (destruct MB as (L1 & _), MV as (L2 & _); lia). subst w'.
  assert (Ee : e = sqpart (if (w =? 0)%nat then [0; 1] else bV1 B) /\ ndeg e <> Z.of_nat D).
  { assert (LB : length (bV1 B) = S w) by apply MV. destruct C as [(-> & -> & SF)|[(Nd & W)|(D1' & _)]]; [|split; [|exact Nd]|lia].
    - exfalso. apply NS. split; [reflexivity|]. destruct D as [|d0]; [lia|]. apply (SQ _ _ MV). exact SF.
    - unfold compute_minpoly in E3. destruct (compute_elim_poly p bm_start pts) as [B0|] eqn:EB; [|discriminate]. unfold obind in E3. injection E3 as -> Ee. rewrite LB in Ee. change (S w =? 1)%nat with (w =? 0)%nat in Ee. cbn zeta in Ee. set (V' := if (w =? 0)%nat then [0; 1] else bV1 B) in *.
      destruct (sqf V' && (ndeg V' =? Z.of_nat D)) eqn:C0; [|symmetry; exact Ee]. apply andb_true_iff in C0 as [_ C0]. apply Z.eqb_eq in C0. congruence. }
  destruct Ee as [Ee Nd]. cbv zeta. unfold fglm_all. assert (FN : fglm k p sqf sqpart m sq nv bs lin eqs v old = Some NotShape).
  { unfold fglm. rewrite (proj2 (Z.leb_gt _ _)) by exact PU. rewrite (red_nz p Hp PU N2). rewrite E1. unfold obind at 1. rewrite E2. unfold obind at 1. rewrite E3. unfold obind at 1. cbn [snd]. destruct (Z.eqb_spec (ndeg e) (Z.of_nat D)) as [?|_]; [contradiction|reflexivity]. }
  rewrite FN. unfold obind at 1. rewrite E1. unfold obind at 1. rewrite E2. unfold obind at 1. rewrite E3. unfold obind at 1. cbn [fst snd]. rewrite <- Ee. assert (LB : length (bV1 B) = S w) by apply MV. rewrite LB. change (S w =? 1)%nat with (w =? 0)%nat. reflexivity.
Qed.

Lemma answer V w : lucky p nv G D M v0 V w -> ~ (w = D /\ squarefree p V) -> forall Q, squarefree_part p V Q (sqpart V) -> coords_exist nv p (colon nv p G Q) lin -> (2 <= al (length (sqpart V) - 1))%nat ->
  exists ok cs, run = Some (NonShape (NsParam ok (sqpart V) cs)) /\ parametrises nv p (colon nv p G Q) (length (sqpart V) - 1) (sqpart V) cs /\
    generates_last nv p (colon nv p G Q) (sqpart V) /\ (lam_ok p nv lin squ lam (sqpart V) cs -> ok = true).
Proof.
  intros (MV & MIN & GL) NS Q (VQE & _ & _) CE AL. destruct (until V w MV MIN NS) as (res & E1 & T & RUN). destruct ST as [Hp N2 PU SQ PC XG LM R NV D2 MM IND VB SB BS BN BD EQ LO HV]. pose proof (p2 p Hp) as P2.
  assert (B1 : (1 <= bs)%nat) by lia. assert (D1 : (1 <= D)%nat) by lia.
  destruct w as [|w].
  { exfalso. assert (V1 : pdvd p V [1]). { destruct MV as (L1 & T1 & _). destruct V as [|x [|y V]]; try discriminate L1. cbn in T1. subst x. apply pdvd_refl. }
    apply GL in V1. assert (K : eqp p 1 0).
    { apply (IND (fun j => if (j =? 0)%nat then 1 else 0)) with (j := 0%nat); [|lia]. eapply I_eq; [exact V1|]. intros x _. rewrite (uni_apply nv NV). cbn [apply_at]. rewrite (sumn_ext D _ (fun j => if (j =? 0)%nat then b 0%nat x else 0)) by (intros i _; destruct i; cbn [Nat.eqb]; ring). rewrite sumn_delta by lia. rewrite (proj1 MM). unfold X. rewrite (xpow_0 nv). exists 0. ring. }
    destruct K as [z K]. assert (z <= 0 \/ 1 <= z) as [?|?] by lia; nia. }
  cbn [Nat.eqb] in RUN. destruct (PC V w MV) as (Q' & e & ME & _). set (E := sqpart V) in *. assert (LE : length E = S (S e)) by apply ME. rewrite LE in *. replace (S (S e) - 1)%nat with (S e) in * by lia.
  assert (VI : ideal nv p G (uni_at nv (nv - 1) V)) by (apply GL; apply pdvd_refl).
  assert (TQ : sqt m sq bs D res) by (apply (gen_frame k p m sq bs B1 nv v old res D1 E1)).
  destruct T as (Lres & Ta & Tb). assert (SZ : (2 * bs * D <= length res)%nat) by nia.
  assert (WD : (S w <= D)%nat).
  { destruct (Nat.eq_dec D 0) as [Z|_]; [lia|]. pose proof E1 as E1'. destruct (minpoly_cases k p sqf sqpart m sq nv bs v old M v0 Hp PU SQ R NV D1 B1 BN (or_introl BD) LO HV) as (_ & _ & B & _ & w' & _ & _ & _ & _ & MB & Lw & MB' & _).
    assert (V = bV1 B) as -> by (apply (C47_unique p s V (bV1 B) (S w) w'); assumption). destruct MB as (L1 & _), MV as (L2 & _). lia. }
  assert (HT0 : forall i, (i < D)%nat -> tab res bs i 0 = Some (s i mod p)).
  { intros i Hi. unfold tab. rewrite (nth_error_ok res _ 0) by nia. rewrite Nat.add_0_r, Ta by lia. reflexivity. }
  assert (HT1 : forall i j, (i < D)%nat -> (1 <= j < bs)%nat -> tab res bs i j = Some (mpow D M v0 i (S j) mod p)).
  { intros i j Hi Hj. unfold tab. rewrite (nth_error_ok res _ 0) by nia. rewrite Tb by lia. reflexivity. }
  assert (HT2 : forall i q, (i < D)%nat -> (q < nv - 1)%nat -> lin q = false -> squ q <> 0%nat -> tab res bs (D + i) (var_place nv lin q - 1) = Some (mpow D M v0 i (squ q) mod p)).
  { intros i q Hi Hq Lq Sq. destruct (SB q Hq Sq) as [SD _].
    assert (PL : (1 <= var_place nv lin q - 1 < bs)%nat). { unfold var_place. replace (seq 0 (nv - 1)) with (seq 0 q ++ q :: seq (S q) (nv - 2 - q)) in BS. 2: { replace (nv - 1)%nat with (q + S (nv - 2 - q))%nat by lia. rewrite seq_app. reflexivity. } rewrite filter_app, app_length in BS. cbn [filter] in BS. rewrite Lq in BS. cbn [negb length] in BS. lia. }
    unfold tab. rewrite (nth_error_ok res _ 0) by nia. rewrite (Nat.add_comm D i). rewrite TQ by (try exact PL; lia). rewrite (square_entry_ok k p m M v0 squ nv lin v old P2 PU R LO HV i q Hq Lq SD). reflexivity. }
  clear Ta Tb TQ E1 HV LO SQ PC. remember (m_ncols m) as DD eqn:ED. destruct DD as [|d]; [lia|]. clear ED.
  assert (GLJ : generates_last nv p (colon nv p G Q) E).
  { intros g. rewrite (J_iff nv p G Q NV), (colon_uni nv p G Q NV g). rewrite (GL (FpSpec.pmul Q g)). split.
    - intros (c & Ec). exists c. apply (pmul_cancel p Hp _ _ Q).
      + intros Z0. destruct (nf_of_monic p Hp _ _ MV) as [_ DV]. apply (hdeg_nz p _ _ DV). rewrite VQE, Z0. reflexivity.
      + transitivity (FpSpec.pmul Q g); [ring|]. rewrite Ec, VQE. ring.
    - intros (c & Ec). exists c. rewrite Ec, VQE. ring. }
  unfold non_shape in RUN. destruct (invert_first nv p d M v0 lin bs res Hp NV BS BD HT0 V Q E (S w) e MV WD MIN ME VQE xg XG) as (t & Et & Nt & Ct). rewrite Et in RUN. unfold obind at 2 in RUN. cbn [fst snd negb] in RUN.
  destruct (ns_coords_ok nv p G d b M v0 lin bs res Hp NV MM IND VB BS BD HT1 V Q E (S w) e MV WD MIN ME VQE VI al CE AL t Nt Ct (nv - 1) 0 0 []) as (cs & Ec & Lc & Gc); [lia|reflexivity|reflexivity|intros i Hi; lia|]. rewrite Ec in RUN. unfold obind at 2 in RUN.
  destruct (ns_verify_ok nv p G d b M v0 lin bs res squ Hp PU NV MM IND VB BS BD HT0 HT1 V Q E (S w) e MV WD MIN ME VQE xg XG al AL HT2 SB lam LM cs Gc (nv - 1) 0 0 true) as (ok & Eo & Ho); [lia|reflexivity|]. rewrite Eo in RUN. unfold obind at 2 in RUN.
  pose proof (EJ nv p G NV V Q E VQE VI) as EIn. assert (LEq : (length eqs =? nv)%nat = false) . { apply Nat.eqb_neq. assert (FL : forall (A B : Type) (P : A -> B -> Prop) l l', Forall2 P l l' -> length l = length l') by (induction 1; cbn [length]; congruence). rewrite <- (FL _ _ _ _ _ EQ). pose proof (filter_cnt lin (seq 0 (nv - 1))) as FC. rewrite seq_length in FC. lia. }
  assert (EQJ : Forall2 (linear_row nv p (colon nv p G Q)) (filter lin (seq 0 (nv - 1))) eqs).
  { clear -EQ NV. induction EQ as [|x y l l' H HF IH]; [constructor|]. constructor; [|exact IH]. destruct H as (A1 & A2 & A3 & A4 & A5). split; [exact A1|]. split; [exact A2|]. split; [exact A3|]. split; [exact A4|]. apply (J_iff nv p G Q NV). apply (colon_incl nv p G Q NV). exact A5. }
  destruct (linear_loop_ok nv p (colon nv p G Q) Hp PU NV e lin E ME EIn (nv - 1) (rev eqs) cs) as (cs' & El & Ll & Gl); [lia|apply forall2_rev; exact EQJ|exact Lc| |].
  { intros q Hq. destruct (Gc q Hq) as (A1 & A2 & A3). split; [exact A1|]. split; [exact A2|]. intros [F|F]; [apply A3; exact F|lia]. }
  unfold set_linear in RUN. rewrite LEq, El in RUN. unfold obind in RUN. cbn [fst snd] in RUN. exists ok, cs'. split; [exact RUN|]. split; [|split; [exact GLJ|]].
  - split; [exact LE|]. split; [apply ME|]. split; [apply ME|]. split; [exact EIn|]. split; [exact Ll|]. intros q Hq. destruct (Gl q Hq) as (A1 & A2 & A3). split; [exact A2|]. split; [apply (nf_in p Hp); exact A1|]. split; [apply (nf_last p Hp); exact A1|exact A3].
  - intros LO. apply Ho. intros q Hq Lq Sq. unfold meets. assert (Es : nth q cs [] = nth q cs' []).
    { destruct (Gc q Hq) as (A1 & A2 & A3), (Gl q Hq) as (C1 & C2 & C3). apply (cong_unique p Hp E e ME); try assumption. unfold cong. apply GLJ. eapply I_eq; [apply lspan_sub; [apply A3; exact Lq|exact C3]|]. intros x _. unfold coord_poly, psub. rewrite (uni_padd nv NV).
      assert (P : eqp p (uni_at nv (nv - 1) (popp (nth q cs' [])) x) (- uni_at nv (nv - 1) (nth q cs' []) x)). { transitivity (uni_at nv (nv - 1) (pscal (-1) (nth q cs' [])) x); [apply (uni_peq nv p NV); intros i; rewrite pc_pscal, pc_popp; exists 0; ring|]. rewrite (uni_pscal nv NV). exists 0. ring. }
      rewrite P. exists 0. ring. }
    rewrite Es. intros g j. apply (LO q Hq Lq Sq).
Qed.
End Answer.
