(** C57, C58: change of order modulo a prime: products by the multiplication matrix, elimination polynomial and parametrisations. *)
From Coq Require Import ZArith NArith Arith List Bool Lia Znumtheory Zpow_facts Setoid Morphisms Ring.
From Verif Require Import LinSpec MonoSpec MonoSpecProofs GbSpec GbProofs GbIdeal.
From Verif Require Import FpSpec FglmSpec ModInvModel NmodModel FpProofs BmModel BmProofs BmProps FglmModel MatVecProofs SeqProofs HankelProofs ShapeProofs ParamProofs FglmCore.
Import ListNotations.
Open Scope Z_scope.

(** Both kernels compute the product of the matrix held by the sparse structure and the vector, exactly, modulo p. *)
Theorem C57_product : forall k p m M old v, 2 <= p < 1518500213 -> represents p m M ->
  length old = m_ncols m -> length v = m_ncols m -> (forall c, In c v -> 0 <= c < p) ->
  exists r, mult_vec k p m old v = Some r /\ holds_vec p (m_ncols m) r (mvec (m_ncols m) M (fun j => nth j v 0)).
Proof.
  intros k p m M old v [P2 PU] R Lo Lv Sv. destruct (mult_vec_ok p m M P2 PU R k old v Lo Lv Sv) as (r & E & L & V). exists r. split; [exact E|]. split; [exact L|exact V].
Qed.
Print Assumptions C57_product.
(** The portable and the vectorised kernel agree. *)
Theorem C57_agree : forall p m M old old' v, 2 <= p < 1518500213 -> represents p m M ->
  length old = m_ncols m -> length old' = m_ncols m -> length v = m_ncols m -> (forall c, In c v -> 0 <= c < p) ->
  mult_vec Scalar p m old v = mult_vec Avx p m old' v.
Proof.
  intros p m M old old' v P R Lo Lo' Lv Sv. destruct (C57_product Scalar p m M old v P R Lo Lv Sv) as (r & -> & L & V). destruct (C57_product Avx p m M old' v P R Lo' Lv Sv) as (r' & -> & L' & V'). f_equal. apply (nth_ext _ _ 0 0); [congruence|]. intros i Hi. rewrite V, V' by congruence. reflexivity.
Qed.
Print Assumptions C57_agree.
(** The table of the sequence: the points given to Berlekamp-Massey are the first coordinates of M^i v, and column j the coordinate j. *)
Theorem C57_sequence : forall k p m M sq nv bs v0 l old, 2 <= p < 1518500213 -> represents p m M ->
  (1 <= bs <= nv)%nat -> (bs < m_ncols m \/ bs = 1)%nat -> (1 <= m_ncols m)%nat -> length old = m_ncols m -> holds_vec p (m_ncols m) l v0 ->
  exists res, gen_res k p m sq nv bs l old = Some res /\
    gen_pts (m_ncols m) bs res = Some (map (fun i => mpow (m_ncols m) M v0 i 0%nat mod p) (seq 0 (2 * m_ncols m))) /\
    forall j, (1 <= j < bs)%nat -> hankel_rhs res (m_ncols m) bs (S j) = Some (map (fun i => mpow (m_ncols m) M v0 i (S j) mod p) (seq 0 (m_ncols m))).
Proof.
  intros k p m M sq nv bs v0 l old [P2 PU] R [B1 BN] BD D1 Lo Hv. assert (SZ : (2 * bs * m_ncols m <= 2 * nv * m_ncols m)%nat) by nia. destruct (gen_res_ok k p m M sq nv bs _ v0 P2 PU R B1 BD D1 eq_refl SZ l old Lo Hv) as (res & E & T). exists res. split; [exact E|]. split; [apply (gen_pts_ok p m M nv bs (2 * nv * m_ncols m) v0); first [assumption|reflexivity]|]. intros j Hj. apply (rhs_ok p m M nv bs (2 * nv * m_ncols m) v0); first [assumption|reflexivity].
Qed.
Print Assumptions C57_sequence.
(** The address of a row is computed in 32 bits: from 2^32 entries on, another row is read. *)
Theorem C57_wrap_refuted : forall m j, 2 ^ 32 <= Z.of_nat j * Z.of_nat (m_ncols m) < 2 ^ 33 -> (j < m_nrows m)%nat ->
  length (m_dense m) = (m_nrows m * m_ncols m)%nat ->
  row_of m j = Some (firstn (m_ncols m) (skipn (j * m_ncols m - Z.to_nat (2 ^ 32)) (m_dense m))).
Proof.
  intros m j H Hj L. unfold row_of, wrap32. replace (Z.of_nat j * Z.of_nat (m_ncols m)) with (Z.of_nat j * Z.of_nat (m_ncols m) - 2 ^ 32 + 1 * 2 ^ 32) by ring. rewrite Z.mod_add by lia. rewrite Z.mod_small by lia.
  replace (Z.to_nat (Z.of_nat j * Z.of_nat (m_ncols m) - 2 ^ 32)) with (j * m_ncols m - Z.to_nat (2 ^ 32))%nat by (rewrite <- Nat2Z.inj_mul; rewrite Z2Nat.inj_sub by lia; rewrite Nat2Z.id; reflexivity).
  rewrite (proj2 (Nat.leb_le _ _)); [reflexivity|]. rewrite L. assert ((j * m_ncols m + m_ncols m <= m_nrows m * m_ncols m)%nat) by nia. generalize (Z.to_nat (2 ^ 32)). intros t. lia.
Qed.
Print Assumptions C57_wrap_refuted.

(** What is used of FLINT's squarefree test and factorisation: the test is right, the squarefree part is not longer, and shorter when
    the polynomial is not squarefree. *)
Definition sqf_contract (p : Z) (sqf : list Z -> bool) (sqpart : list Z -> list Z) : Prop :=
  forall f k, monic_of_degree p f (S k) -> (sqf f = true <-> squarefree p f) /\ (length (sqpart f) <= length f)%nat /\
    (sqf f = false -> (length (sqpart f) < length f)%nat).

Lemma red_nz p : prime p -> p < 1518500213 -> p <> 2 -> (red64_of p =? 0) || (red32_of p =? 0) = false.
Proof.
  intros Hp PU N. pose proof (p2 p Hp). assert (K : forall e x, 0 <= e -> eqp p x (2 ^ e) -> x <> 0). { intros e x He E Z. apply N. apply (prime_power_prime p 2 e); [exact He|exact Hp|exact prime_2|]. destruct E as [q E]. exists (- q). lia. }
  apply orb_false_iff. split; apply Z.eqb_neq; [apply (K 64); [lia|apply (red64_ok p); lia]|apply (K 32); [lia|apply (red32_ok p); lia]].
Qed.

Section Main.
Variables (k : kernel) (p : Z) (sqf : list Z -> bool) (sqpart : list Z -> list Z) (m : sp_mat) (sq : nat -> nat -> Z) (nv bs : nat)
  (lin : nat -> bool) (eqs : list (list Z)) (v old : list Z) (M : mat) (G : pf -> Prop) (b : nat -> pf) (v0 : nat -> Z).
Hypothesis Hp : prime p.
Hypothesis PU : p < 1518500213.
Hypothesis SQ : sqf_contract p sqf sqpart.
Hypothesis R : represents p m M.
Hypothesis NV : (1 <= nv)%nat.
Notation D := (m_ncols m).
Hypothesis D1 : (1 <= D)%nat.
Hypothesis B1 : (1 <= bs)%nat.
Hypothesis BN : (bs <= nv)%nat.
Hypothesis BD : (bs < D \/ bs = 1)%nat.
Hypothesis LO : length old = D.
Hypothesis HV : holds_vec p D v v0.
Notation s := (fun i => mpow D M v0 i 0%nat).
Lemma sz_le : (2 * bs * D <= 2 * nv * D)%nat.
Proof. nia. Qed.


(** the elimination polynomial computed, by cases *)
Lemma minpoly_cases : exists res pts B e w, gen_res k p m sq nv bs v old = Some res /\ gen_pts D bs res = Some pts /\ pts = map (fun i => s i mod p) (seq 0 (2 * D)) /\
  compute_minpoly p sqf sqpart D pts = Some (B, e) /\ monic_of_degree p (bV1 B) w /\ (w <= D)%nat /\ minimal_polynomial p (bV1 B) s /\
  ((e = bV1 B /\ w = D /\ sqf e = true) \/ (ndeg e <> Z.of_nat D /\ (w = D -> sqf (bV1 B) = false)) \/ (D = 1%nat /\ w = 0%nat)).
Proof.
  pose proof (p2 p Hp) as P2. destruct (gen_res_ok k p m M sq nv bs _ v0 P2 PU R B1 BD D1 eq_refl sz_le v old LO HV) as (res & E & T). pose proof (gen_pts_ok p m M nv bs _ v0 P2 PU B1 BD D1 eq_refl sz_le res T) as EP. exists res. eexists. destruct (Nat.eq_dec D 0) as [Z|_]; [lia|]. remember (D - 1)%nat as d eqn:Ed. assert (ED : D = S d) by lia.
  destruct (cayley p Hp d M) as (Q & e & HQ & Le & EV). assert (A : annihilates p Q s). { pose proof (ev_zero_ann p d M v0 Q EV) as A. unfold hs in A. rewrite <- ED in A. exact A. }
  destruct (C47_minimal p (fun i => s i mod p) Q e (2 * D) Hp HQ (proj2 (ann_mod p Hp Q s) A) ltac:(lia)) as (B & w & EB & MB & Lw & Mn). apply (min_mod p Hp) in Mn. cbv beta in Mn.
  exists B. eexists. exists w. split; [exact E|]. split; [exact EP|]. split; [reflexivity|]. unfold compute_minpoly. rewrite EB. unfold obind. split; [reflexivity|]. split; [exact MB|]. split; [lia|]. split; [exact Mn|].
  assert (LB : length (bV1 B) = S w) by apply MB. rewrite LB. destruct w as [|w].
  - cbn [Nat.eqb]. destruct (Nat.eq_dec D 1) as [D1'|N1]; [right; right; split; [exact D1'|reflexivity]|]. right. left. split; [|lia]. assert (MX : monic_of_degree p [0; 1] 1) by (split; [reflexivity|split; [reflexivity|intros c [<-|[<-|[]]]; lia]]). destruct (SQ _ _ MX) as [_ [L1 _]]. cbn [length] in L1. assert (T1 : (ndeg [0; 1] =? Z.of_nat D) = false) by (apply Z.eqb_neq; unfold ndeg; cbn [length]; lia). rewrite T1, andb_false_r. unfold ndeg. lia.
  - cbn [Nat.eqb]. destruct (SQ _ _ MB) as [_ [L1 L2]]. rewrite LB in L1, L2. assert (T1 : ndeg (bV1 B) = Z.of_nat (S w)) by (unfold ndeg; lia). rewrite T1. destruct (Z.eqb_spec (Z.of_nat (S w)) (Z.of_nat D)) as [Z|N].
    + rewrite andb_true_r. destruct (sqf (bV1 B)) eqn:S1; [left; split; [reflexivity|split; [lia|exact S1]]|]. right. left. specialize (L2 eq_refl). unfold ndeg. split; [lia|reflexivity].
    + rewrite andb_false_r. right. left. unfold ndeg. split; [lia|]. intros Ew. lia.
Qed.
Lemma forall2_rev {A B} (P : A -> B -> Prop) l l' : Forall2 P l l' -> Forall2 P (rev l) (rev l').
Proof. induction 1 as [|x y l l' H HF IH]; [constructor|]. cbn [rev]. apply Forall2_app; [exact IH|]. constructor; [exact H|constructor]. Qed.
Lemma nf_in a : nf p a -> forall c, In c a -> 0 <= c < p.
Proof. intros H. apply (nf_range p Hp). exact H. Qed.
Lemma nf_last a : nf p a -> last a 1 <> 0.
Proof.
  intros H. destruct a as [|x r]; [discriminate|]. pose proof (nf_hdeg p Hp (x :: r) (length r) H eq_refl) as [_ K]. intros Z0. apply K. unfold pc. assert (E : forall l (y d : Z), nth (length l) (y :: l) 0 = last (y :: l) d) by (induction l as [|z l IH]; intros y d; [reflexivity|]; cbn [length]; change (nth (length l) (z :: l) 0 = last (z :: l) d); apply IH). rewrite (E r x 1), Z0. reflexivity.
Qed.
Lemma strip_id a : last a 1 <> 0 -> strip a = a.
Proof.
  induction a as [|x a IH]; intros H; [reflexivity|]. cbn [strip]. destruct a as [|y a]; [cbn [strip last] in *; destruct (Z.eqb_spec x 0); [contradiction|reflexivity]|]. rewrite IH by exact H. reflexivity.
Qed.
Lemma nf_intro a : (forall c, In c a -> 0 <= c < p) -> last a 1 <> 0 -> nf p a.
Proof.
  intros Rg La. unfold nf, norm. replace (map (fun x => x mod p) a) with a; [apply strip_id; exact La|]. clear La. induction a as [|x a IH]; [reflexivity|]. cbn [map]. rewrite Z.mod_small by (apply Rg; left; reflexivity). f_equal. apply IH. intros c Hc. apply Rg. right. exact Hc.
Qed.
Lemma dvd_ann V Q (t : nat -> Z) : pdvd p V Q -> annihilates p V t -> annihilates p Q t.
Proof.
  intros (c & Ec) A i. rewrite (apply_peq p _ _ t i Ec), apply_pmul. rewrite (apply_ext p c (apply_at V t) (fun _ => 0) A i). clear. revert i. induction c as [|x c IH]; intros i; cbn [apply_at]; [reflexivity|]. rewrite (IH (S i)). exists 0. ring.
Qed.
Hypothesis MM : mult_matrix nv p G D b M.
Hypothesis VB : var_basis nv lin b.
Hypothesis BS : (length (filter (fun k => negb (lin k)) (seq 0 (nv - 1))) < bs)%nat.
Hypothesis EQ : Forall2 (linear_row nv p G) (filter lin (seq 0 (nv - 1))) eqs.
Lemma eqs_len : (length eqs =? nv)%nat = false.
Proof. apply Nat.eqb_neq. assert (FL : forall (A B : Type) (P : A -> B -> Prop) l l', Forall2 P l l' -> length l = length l') by (induction 1; cbn [length]; congruence). rewrite <- (FL _ _ _ _ _ EQ). assert (F : forall l, (length (filter lin l) <= length l)%nat) by (induction l as [|x l IH]; cbn [filter length]; [lia|]; destruct (lin x); cbn [length]; lia). specialize (F (seq 0 (nv - 1))). rewrite seq_length in F. lia. Qed.
Lemma fglm_core_ok : p <> 2 -> (2 <= D)%nat ->
  (fglm k p sqf sqpart m sq nv bs lin eqs v old = Some NotShape /\ forall V, monic_of_degree p V D -> minimal_polynomial p V s -> ~ squarefree p V) \/
  (exists V, monic_of_degree p V D /\ minimal_polynomial p V s /\ squarefree p V /\
    (fglm k p sqf sqpart m sq nv bs lin eqs v old = Some Special \/
     exists cs, fglm k p sqf sqpart m sq nv bs lin eqs v old = Some (Param V cs) /\ parametrises nv p G D V cs)).
Proof.
  intros N2 NZ. pose proof (p2 p Hp) as P2. destruct minpoly_cases as (res & pts & B & e & w & E1 & E2 & Ep & E3 & MB & Lw & MV & C).
  set (run := fglm k p sqf sqpart m sq nv bs lin eqs v old).
  assert (FE : run = if negb (ndeg e =? Z.of_nat D) then Some NotShape else
    if (length eqs =? nv)%nat then (if negb (forallb lin (seq 0 (nv - 1))) then None else let? c0 := nth_error (last eqs []) nv in
      let? cs := linear_loop p nv [c0; 1] lin (nv - 1) (rev (firstn (nv - 1) eqs)) (repeat [] (nv - 1)) in Some (Param [c0; 1] cs)) else
    let? h := invert_hankel p pts D in match h with HSingular => Some Singular | HSpecial => Some Special
    | HInv Z1 Z2 => let? cs := coords_loop p Z1 Z2 e res D bs lin nv (nv - 1) 0 0 [] in let? cs := linear_loop p nv e lin (nv - 1) (rev eqs) cs in Some (Param e cs) end).
  { unfold run, fglm. rewrite (proj2 (Z.leb_gt _ _)) by exact PU. rewrite (red_nz p Hp PU N2). rewrite E1. unfold obind at 1. rewrite E2. unfold obind at 1. rewrite E3. reflexivity. }
  rewrite eqs_len in FE. clearbody run.
  destruct C as [(Ee & Ew & SF)|[(Nd & W)|(D1' & Ew)]].
  - right. exists e. subst e w. split; [exact MB|]. split; [exact MV|]. split; [destruct D as [|d0]; [lia|]; apply (SQ _ _ MB); exact SF|]. assert (Le : length (bV1 B) = S D) by apply MB. unfold ndeg in FE. rewrite Le in FE. destruct (Z.eqb_spec (Z.of_nat (S D) - 1) (Z.of_nat D)) as [_|?]; [|lia]. cbn [negb] in FE. set (elim := bV1 B) in *. clearbody elim.
    assert (HR : forall j, (1 <= j < bs)%nat -> hankel_rhs res D bs (S j) = Some (map (fun i => mpow D M v0 i (S j) mod p) (seq 0 D))).
    { destruct (gen_res_ok k p m M sq nv bs _ v0 P2 PU R B1 BD D1 eq_refl sz_le v old LO HV) as (res' & E' & T). rewrite E1 in E'. injection E' as <-. intros j Hj. apply (rhs_ok p m M nv bs _ v0 P2 PU B1 BD D1 eq_refl sz_le res j T Hj). }
    clear E1 E2 E3 HV LO Lw. remember (m_ncols m) as DD eqn:ED. destruct DD as [|d]; [lia|]. 
    pose proof (nf_of_monic p Hp _ _ MB) as [Ne De].
    assert (NS : nonsing p d (fun i => hs d M v0 i mod p)). { intros x Hx. apply (hankel_nonsing p Hp d M v0 elim De MV x). intros i Hi. rewrite <- (hmul_mod p Hp (hs d M v0) (S d) x i). apply Hx. exact Hi. }
    destruct (invert_hankel_ok p Hp d (fun i => hs d M v0 i mod p) NS pts) as (r & Z1 & Z2 & EI & HI & C).
    { rewrite Ep, map_length, seq_length. lia. }
    { rewrite Ep, firstn_map. f_equal. replace (2 * S d)%nat with (2 * S d - 1 + 1)%nat at 2 by lia. rewrite seq_app, firstn_app, seq_length, Nat.sub_diag. cbn [firstn]. rewrite app_nil_r. apply firstn_all2. rewrite seq_length. lia. }
    rewrite EI in FE. unfold obind at 1 in FE. destruct C as [(NZ1 & ->)|(_ & ->)]; [|left; exact FE]. right.
    pose proof (elim_in nv p G Hp NV d b M v0 MM elim MB MV) as EIn. destruct (coords_ok nv p G Hp NV d b M v0 MM lin bs VB BS BD elim MB MV EIn Z1 Z2 res HI NZ1 HR (nv - 1) 0 0 []) as (cs & Ec & Lc & Gc); [lia|reflexivity|reflexivity|intros i Hi; lia|]. rewrite Ec in FE. unfold obind at 1 in FE.
    destruct (linear_loop_ok nv p G Hp PU NV d lin elim MB EIn (nv - 1) (rev eqs) cs) as (cs' & El & Ll & Gl); [lia|apply forall2_rev; exact EQ|exact Lc| |].
    { intros q Hq. destruct (Gc q Hq) as (A1 & A2 & A3). split; [exact A1|]. split; [exact A2|]. intros [F|F]; [apply A3; exact F|lia]. }
    rewrite El in FE. unfold obind at 1 in FE. exists cs'. split; [exact FE|]. split; [exact Le|]. split; [apply MB|]. split; [apply MB|]. split; [exact EIn|]. split; [exact Ll|].
    intros q Hq. destruct (Gl q Hq) as (A1 & A2 & A3). split; [exact A2|]. split; [apply nf_in; exact A1|]. split; [apply nf_last; exact A1|exact A3].
  - left. destruct (Z.eqb_spec (ndeg e) (Z.of_nat D)) as [?|_]; [contradiction|]. cbn [negb] in FE. split; [exact FE|]. intros V MVd MVm. assert (V = bV1 B) by (apply (C47_unique p s V (bV1 B) D w); assumption). subst V. assert (w = D) by (destruct MB as (L1 & _), MVd as (L2 & _); lia). specialize (W H). destruct D as [|d0]; [lia|]. intros SF. apply (SQ _ _ MVd) in SF. congruence.
  - lia.
Qed.
End Main.

(** For an odd prime and a matrix of the multiplication by the last variable: the computation never fails. It reports that the
    elimination polynomial is not squarefree of full degree only when that is so for the sequence; otherwise it gives a parametrisation, or
    gives up in the one case that is not modelled. *)
Theorem C58_param : forall k p sqf sqpart m sq nv bs lin eqs v old M G b v0,
  prime p -> p <> 2 -> sqf_contract p sqf sqpart -> represents p m M -> (1 <= nv)%nat -> (2 <= m_ncols m)%nat ->
  mult_matrix nv p G (m_ncols m) b M -> var_basis nv lin b ->
  (length (filter (fun k => negb (lin k)) (seq 0 (nv - 1))) < bs)%nat -> (bs <= nv)%nat -> (bs < m_ncols m)%nat ->
  Forall2 (linear_row nv p G) (filter lin (seq 0 (nv - 1))) eqs ->
  length old = m_ncols m -> holds_vec p (m_ncols m) v v0 ->
  (1518500213 <= p /\ fglm k p sqf sqpart m sq nv bs lin eqs v old = Some TooLarge) \/
  (fglm k p sqf sqpart m sq nv bs lin eqs v old = Some NotShape /\
    forall V, monic_of_degree p V (m_ncols m) -> minimal_polynomial p V (fun i => mpow (m_ncols m) M v0 i 0%nat) -> ~ squarefree p V) \/
  (exists V, monic_of_degree p V (m_ncols m) /\ minimal_polynomial p V (fun i => mpow (m_ncols m) M v0 i 0%nat) /\ squarefree p V /\
    (fglm k p sqf sqpart m sq nv bs lin eqs v old = Some Special \/
     exists cs, fglm k p sqf sqpart m sq nv bs lin eqs v old = Some (Param V cs) /\ parametrises nv p G (m_ncols m) V cs)).
Proof.
  intros k p sqf sqpart m sq nv bs lin eqs v old M G b v0 Hp N2 SQ R NV D1 MM VB BS BN BD EQ LO HV. destruct (Z.le_gt_cases 1518500213 p) as [A|A].
  - left. split; [exact A|]. unfold fglm. rewrite (proj2 (Z.leb_le _ _) A). reflexivity.
  - right. apply (fglm_core_ok k p sqf sqpart m sq nv bs lin eqs v old M G b v0); first [assumption|lia].
Qed.
Print Assumptions C58_param.

(** When the basis is independent modulo the ideal, the elimination polynomial found generates the polynomials in the last variable:
    every polynomial Q with Q(x_n) in the ideal is a multiple of it. *)
Theorem C58_minimal : forall k p sqf sqpart m sq nv bs lin eqs v old M G b v0 elim cs,
  prime p -> p <> 2 -> sqf_contract p sqf sqpart -> represents p m M -> (1 <= nv)%nat -> (2 <= m_ncols m)%nat ->
  mult_matrix nv p G (m_ncols m) b M -> var_basis nv lin b ->
  (length (filter (fun k => negb (lin k)) (seq 0 (nv - 1))) < bs)%nat -> (bs <= nv)%nat -> (bs < m_ncols m)%nat ->
  Forall2 (linear_row nv p G) (filter lin (seq 0 (nv - 1))) eqs ->
  length old = m_ncols m -> holds_vec p (m_ncols m) v v0 ->
  independent nv p G (m_ncols m) b ->
  fglm k p sqf sqpart m sq nv bs lin eqs v old = Some (Param elim cs) ->
  forall Q, ideal nv p G (uni_at nv (nv - 1) Q) <-> pdvd p elim Q.
Proof.
  intros k p sqf sqpart m sq nv bs lin eqs v old M G b v0 elim cs Hp N2 SQ R NV D1 MM VB BS BN BD EQ LO HV IN E Q.
  destruct (C58_param k p sqf sqpart m sq nv bs lin eqs v old M G b v0 Hp N2 SQ R NV D1 MM VB BS BN BD EQ LO HV) as [(_ & C)|[(C & _)|(V & MV & Mn & _ & [C|(cs' & C & P)])]]; rewrite C in E; try discriminate. injection E as <- <-.
  clear C HV LO. remember (m_ncols m) as DD eqn:ED. destruct DD as [|d]; [lia|]. split.
  - apply (uni_min nv p G NV d b M MM v0 V Q Mn IN).
  - intros (c & Ec). eapply I_eq; [apply (uni_mul nv p G NV c V); exact (proj1 (proj2 (proj2 (proj2 P))))|]. intros x _. apply (uni_peq nv p NV). exact Ec.
Qed.
Print Assumptions C58_minimal.

(** The answer does not depend on the random vector, the kernel or the old contents of the memory. *)
Theorem C58_same : forall k k' p sqf sqpart m sq sq' nv bs lin eqs v old v' old' M G b v0 v0' elim cs elim' cs',
  prime p -> p <> 2 -> sqf_contract p sqf sqpart -> represents p m M -> (1 <= nv)%nat -> (2 <= m_ncols m)%nat ->
  mult_matrix nv p G (m_ncols m) b M -> var_basis nv lin b ->
  (length (filter (fun k => negb (lin k)) (seq 0 (nv - 1))) < bs)%nat -> (bs <= nv)%nat -> (bs < m_ncols m)%nat ->
  Forall2 (linear_row nv p G) (filter lin (seq 0 (nv - 1))) eqs ->
  length old = m_ncols m -> length old' = m_ncols m -> holds_vec p (m_ncols m) v v0 -> holds_vec p (m_ncols m) v' v0' ->
  independent nv p G (m_ncols m) b ->
  fglm k p sqf sqpart m sq nv bs lin eqs v old = Some (Param elim cs) ->
  fglm k' p sqf sqpart m sq' nv bs lin eqs v' old' = Some (Param elim' cs') -> elim = elim' /\ cs = cs'.
Proof.
  intros k k' p sqf sqpart m sq sq' nv bs lin eqs v old v' old' M G b v0 v0' elim cs elim' cs' Hp N2 SQ R NV D1 MM VB BS BN BD EQ LO LO' HV HV' IN E E'.
  pose proof (C58_minimal k p sqf sqpart m sq nv bs lin eqs v old M G b v0 elim cs Hp N2 SQ R NV D1 MM VB BS BN BD EQ LO HV IN E) as D.
  pose proof (C58_minimal k' p sqf sqpart m sq' nv bs lin eqs v' old' M G b v0' elim' cs' Hp N2 SQ R NV D1 MM VB BS BN BD EQ LO' HV' IN E') as D'.
  destruct (C58_param k p sqf sqpart m sq nv bs lin eqs v old M G b v0 Hp N2 SQ R NV D1 MM VB BS BN BD EQ LO HV) as [(_ & C)|[(C & _)|(V & MV & Mn & _ & [C|(cs0 & C & P)])]]; rewrite C in E; try discriminate. injection E as <- <-.
  destruct (C58_param k' p sqf sqpart m sq' nv bs lin eqs v' old' M G b v0' Hp N2 SQ R NV D1 MM VB BS BN BD EQ LO' HV') as [(_ & C')|[(C' & _)|(V' & MV' & Mn' & _ & [C'|(cs0' & C' & P')])]]; rewrite C' in E'; try discriminate. injection E' as <- <-.
  assert (EV : V = V').
  { apply (C47_unique p (fun i => mpow (m_ncols m) M v0 i 0%nat) V V' (m_ncols m) (m_ncols m) Hp MV MV' Mn). split.
    - apply (dvd_ann p V); [apply D; apply D'; exists [1]; intros i; rewrite pmul_1_l; reflexivity|apply Mn].
    - intros Q HQ. apply D'. apply D. apply Mn. exact HQ. }
  split; [exact EV|]. subst V'. destruct P as (_ & _ & _ & _ & Lc & Hc), P' as (_ & _ & _ & _ & Lc' & Hc'). apply (nth_ext _ _ [] []); [congruence|]. intros q Hq. rewrite Lc in Hq. destruct (Hc q Hq) as (L1 & R1 & T1 & I1), (Hc' q Hq) as (L2 & R2 & T2 & I2).
  set (a := nth q cs0 []) in *. set (a' := nth q cs0' []) in *. apply (nf_ext p Hp); [apply (nf_intro p); assumption|apply (nf_intro p); assumption|].
  assert (DV : pdvd p V (padd a (pscal (-1) a'))).
  { apply D. eapply I_eq; [apply lspan_sub; [exact I1|exact I2]|]. intros x _. unfold coord_poly. rewrite (uni_padd nv NV), (uni_pscal nv NV). exists 0. ring. }
  destruct DV as (c & Ec). destruct (nf_of_monic p Hp _ _ MV) as [_ Dg]. assert (DA : dlt p (padd a (pscal (-1) a')) (m_ncols m)). { apply dlt_add; [apply (dlt_le p _ (length a)); [exact L1|apply dlt_len]|apply dlt_scal; apply (dlt_le p _ (length a')); [exact L2|apply dlt_len]]. }
  destruct (div_unique p Hp c [] V (m_ncols m) [] (padd a (pscal (-1) a')) Dg) as [_ K].
  - intros i _. rewrite pc_nil. reflexivity.
  - exact DA.
  - intros i. rewrite !pc_padd. rewrite <- (Ec i). rewrite pc_padd. cbn [pmul]. rewrite !pc_nil. exists 0. ring.
  - intros i. specialize (K i). rewrite pc_nil, pc_padd, pc_pscal in K. destruct K as [z K]. exists (- z). lia.
Qed.
Print Assumptions C58_same.

(** Modulo 2 the constants are zero and the program divides by them. *)
Theorem C58_two_refuted : forall k sqf sqpart m sq nv bs lin eqs v old, fglm k 2 sqf sqpart m sq nv bs lin eqs v old = None.
Proof. reflexivity. Qed.
Print Assumptions C58_two_refuted.

Lemma scalar_ann p nv D M G b v0 eq : prime p -> (1 <= nv)%nat -> (1 <= D)%nat -> mult_matrix nv p G D b M -> independent nv p G D b ->
  (forall j, (j < D)%nat -> exists u, length u = nv /\ forall x, b j x = cf [(1, u)] x) -> linear_row nv p G (nv - 1) eq ->
  annihilates p [nth nv eq 0; 1] (fun i => mpow D M v0 i 0%nat).
Proof.
  intros Hp NV D1 MM IN BM LR. set (c := nth nv eq 0). destruct LR as (_ & _ & Z0 & O1 & Ie). set (x := xpow nv (nv - 1) 1).
    assert (LX : forall y, linear_form nv eq y = cf [(1, x)] y + c * cf [(1, mone nv)] y).
    { intros y. unfold linear_form. fold c. f_equal. replace (sumn nv (fun k0 => nth k0 eq 0 * cf [(1, xpow nv k0 1)] y)) with (sumn (S (nv - 1)) (fun k0 => nth k0 eq 0 * cf [(1, xpow nv k0 1)] y)) by (f_equal; lia). change (sumn (S (nv - 1)) (fun k0 => nth k0 eq 0 * cf [(1, xpow nv k0 1)] y)) with (sumn (nv - 1) (fun k0 => nth k0 eq 0 * cf [(1, xpow nv k0 1)] y) + nth (nv - 1) eq 0 * cf [(1, x)] y). rewrite O1.
      replace (sumn (nv - 1) (fun k0 => nth k0 eq 0 * cf [(1, xpow nv k0 1)] y)) with 0; [ring|]. symmetry. transitivity (sumn (nv - 1) (fun _ => 0)); [apply sumn_ext; intros i Hi; rewrite Z0 by exact Hi; reflexivity|]. clear. induction (nv - 1)%nat; cbn [sumn]; lia. }
    assert (Mc : forall i j, (i < D)%nat -> (j < D)%nat -> eqp p (M i j) (if (j =? i)%nat then - c else 0)).
    { intros i j Hi Hj. destruct (BM i Hi) as (u & Lu & Eu). assert (K : ideal nv p G (fun y => sumn D (fun t => (M i t + (if (t =? i)%nat then c else 0)) * b t y))).
      { eapply I_eq; [apply lspan_sub; [apply (ideal_mul nv p G u _ Lu Ie)|exact (proj2 MM i Hi)]|]. intros y Ly. cbv beta.
        replace (sumn D (fun t => (M i t + (if (t =? i)%nat then c else 0)) * b t y)) with (sumn D (fun t => M i t * b t y) + c * b i y).
        2: { rewrite <- (sumn_delta D i (fun t => c * b t y) Hi). rewrite <- sumn_add. apply sumn_ext. intros t _. destruct (t =? i)%nat; ring. }
        fold x. rewrite Eu. assert (PX : GbSpec.pmul x (b i) y = GbSpec.pmul u (cf [(1, x)]) y). { assert (PE : GbSpec.pmul x (b i) y = GbSpec.pmul x (cf [(1, u)]) y) by (unfold GbSpec.pmul; rewrite Eu; reflexivity). rewrite PE. transitivity (cf [(1, mmul x u)] y); [rewrite <- (cf_shift nv x [(1, u)] y); [reflexivity|apply xpow_len; exact NV|intros t [<-|[]]; exact Lu|exact Ly]|]. rewrite (mmul_comm x u) by (rewrite Lu; apply xpow_len; exact NV). rewrite <- (cf_shift nv u [(1, x)] y); [reflexivity|exact Lu|intros t [<-|[]]; apply xpow_len; exact NV|exact Ly]. }
        assert (PL : GbSpec.pmul u (linear_form nv eq) y = GbSpec.pmul u (cf [(1, x)]) y + c * cf [(1, u)] y).
        { transitivity (GbSpec.pmul u (fun z => cf [(1, x)] z + c * cf [(1, mone nv)] z) y); [unfold GbSpec.pmul; rewrite LX; reflexivity|]. transitivity (GbSpec.pmul u (fun z => c * cf [(1, mone nv)] z + cf [(1, x)] z) y); [unfold GbSpec.pmul; destruct (mdvdb u y); ring|]. rewrite pmul_lin. rewrite Z.add_comm. f_equal. f_equal. rewrite <- (cf_shift nv u [(1, mone nv)] y); [|exact Lu|intros t [<-|[]]; apply repeat_length|exact Ly]. unfold shift. cbn [map fst snd]. rewrite (mmul_comm u (mone nv)), (mmul_one_l u nv Lu) by (rewrite Lu; symmetry; apply repeat_length). reflexivity. }
        rewrite PX, PL. exists 0. ring. }
      specialize (IN _ K j Hj). cbv beta in IN. destruct IN as [z Hz]. exists z. destruct (j =? i)%nat; lia. }
    assert (Sc : forall i j, (j < D)%nat -> eqp p (mpow D M v0 (S i) j) (- c * mpow D M v0 i j)).
    { intros i j Hj. cbn [mpow]. unfold mvec. rewrite (sumn_eqp p D _ (fun t => if (t =? j)%nat then - c * mpow D M v0 i t else 0)).
      - rewrite (sumn_delta D j (fun t => - c * mpow D M v0 i t) Hj). reflexivity.
      - intros t Ht. rewrite (Mc j t Hj Ht). destruct (t =? j)%nat; [reflexivity|exists 0; ring]. }
    assert (An : annihilates p [c; 1] (fun i => mpow D M v0 i 0%nat)). { intros i. cbn [apply_at]. rewrite (Sc i 0%nat ltac:(lia)). exists 0. ring. }
    exact An.
Qed.
Lemma deg_one_dvd p V w c : prime p -> monic_of_degree p V w -> pdvd p V [c; 1] -> (w <= 1)%nat.
Proof.
  intros Hp MB (q & Eq). pose proof (p2 p Hp) as P2. destruct (le_lt_dec w 1) as [L|L]; [exact L|]. exfalso. destruct (nf_of_monic p Hp _ _ MB) as [_ Dg].
    destruct (div_unique p Hp q [] V w [] [c; 1] Dg) as [_ K].
    - intros i _. rewrite pc_nil. reflexivity.
    - apply (dlt_le p _ 2); [lia|apply (dlt_len p [c; 1])].
    - intros i. rewrite !pc_padd. rewrite <- (Eq i). cbn [pmul]. rewrite !pc_nil. exists 0. ring.
    - specialize (K 1%nat). rewrite pc_nil in K. cbn [pc nth] in K. destruct K as [z K]. assert (0 <= z < 1 \/ z < 0 \/ 1 <= z) by lia. nia.
Qed.
(** The last variable is itself the leading monomial of a linear form, and the quotient has dimension at least 2: always reported as not
    in shape position. *)
Theorem C58_scalar : forall k p sqf sqpart m sq nv bs lin eqs v old M G b v0 eq,
  prime p -> p <> 2 -> p < 1518500213 -> sqf_contract p sqf sqpart -> represents p m M -> (1 <= nv)%nat -> (2 <= m_ncols m)%nat ->
  mult_matrix nv p G (m_ncols m) b M -> independent nv p G (m_ncols m) b ->
  (forall j, (j < m_ncols m)%nat -> exists u, length u = nv /\ forall x, b j x = cf [(1, u)] x) ->
  linear_row nv p G (nv - 1) eq -> (1 <= bs <= nv)%nat -> (bs < m_ncols m)%nat ->
  length old = m_ncols m -> holds_vec p (m_ncols m) v v0 ->
  fglm k p sqf sqpart m sq nv bs lin eqs v old = Some NotShape.
Proof.
  intros k p sqf sqpart m sq nv bs lin eqs v old M G b v0 eq Hp N2 PU SQ R NV D2 MM IN BM LR [B1 BN] BD LO HV. pose proof (p2 p Hp) as P2.
  destruct (minpoly_cases k p sqf sqpart m sq nv bs v old M v0 Hp PU SQ R NV ltac:(lia) B1 BN ltac:(lia) LO HV) as (res & pts & B & e & w & E1 & E2 & Ep & E3 & MB & Lw & MV & C).
  unfold fglm. rewrite (proj2 (Z.leb_gt _ _)) by exact PU. rewrite (red_nz p Hp PU N2). rewrite E1. unfold obind at 1. rewrite E2. unfold obind at 1. rewrite E3. unfold obind at 1. cbn [snd].
  assert (W1 : (w <= 1)%nat) by (apply (deg_one_dvd p (bV1 B) w (nth nv eq 0) Hp MB); apply (proj2 MV); apply (scalar_ann p nv (m_ncols m) M G b v0 eq); try assumption; lia).
  destruct C as [(_ & Ew & _)|[(Nd & _)|(Dd & _)]]; [lia| |lia]. destruct (Z.eqb_spec (ndeg e) (Z.of_nat (m_ncols m))) as [?|_]; [contradiction|]. reflexivity.
Qed.
Print Assumptions C58_scalar.
Lemma F2_len {A B} (P : A -> B -> Prop) l l' : Forall2 P l l' -> length l = length l'.
Proof. induction 1; cbn [length]; congruence. Qed.
Lemma F2_rev {A B} (P : A -> B -> Prop) l l' : Forall2 P l l' -> Forall2 P (rev l) (rev l').
Proof. induction 1; cbn [rev]; [constructor|apply Forall2_app; [assumption|constructor; [assumption|constructor]]]. Qed.
Lemma filt_all {A} (f : A -> bool) l : (forall x, In x l -> f x = true) -> filter f l = l.
Proof. induction l as [|x l IH]; intros H; [reflexivity|]. cbn [filter]. rewrite (H x) by (left; reflexivity). f_equal. apply IH. intros y Hy. apply H. right. exact Hy. Qed.
Lemma filt_none {A} (f : A -> bool) l : (forall x, In x l -> f x = false) -> filter f l = [].
Proof. induction l as [|x l IH]; intros H; [reflexivity|]. cbn [filter]. rewrite (H x) by (left; reflexivity). apply IH. intros y Hy. apply H. right. exact Hy. Qed.
Lemma sqf_degree_one p c : prime p -> monic_of_degree p c 1 -> squarefree p c.
Proof.
  intros Hp Mc g (q & Eq). destruct (nf_of_monic p Hp _ _ Mc) as [_ [Dc1 Dc2]].
  assert (K : hdeg p (pmul q (pmul g g)) 1). { split; [intros i Hi; rewrite <- (Eq i); apply Dc1; exact Hi|]. rewrite <- (Eq 1%nat). exact Dc2. }
  apply (hdeg_factor p Hp) in K as (i & j & _ & K & E). apply (hdeg_factor p Hp) in K as (a & b & K1 & K2 & E'). pose proof (hdeg_uniq p g a b K1 K2). replace a with 0%nat in K1 by lia. exact K1.
Qed.
(** Every variable is the leading monomial of a linear form, so that the quotient has dimension 1: the parametrisation is read off the
    linear forms, whatever the random vector. *)
Theorem C58_one : forall k p sqf sqpart m sq nv lin eqs v old M G v0,
  prime p -> p <> 2 -> p < 1518500213 -> sqf_contract p sqf sqpart -> represents p m M -> (1 <= nv)%nat -> m_ncols m = 1%nat ->
  (forall q, (q < nv - 1)%nat -> lin q = true) -> Forall2 (linear_row nv p G) (seq 0 nv) eqs ->
  length old = 1%nat -> holds_vec p 1 v v0 ->
  exists elim cs, fglm k p sqf sqpart m sq nv 0 lin eqs v old = Some (Param elim cs) /\ parametrises nv p G 1 elim cs.
Proof.
  intros k p sqf sqpart m sq nv lin eqs v old M G v0 Hp N2 PU SQ R NV D1 LN EQ LO HV. pose proof (p2 p Hp) as P2.
  assert (D1' : (1 <= m_ncols m)%nat) by lia. assert (LO' : length old = m_ncols m) by lia. assert (HV' : holds_vec p (m_ncols m) v v0) by (rewrite D1; exact HV).
  destruct (C57_product k p m M old v ltac:(lia) R LO' (proj1 HV') (holds_small p P2 _ _ _ HV')) as (r & Er & Lr & Vr).
  destruct r as [|y [|? ?]]; rewrite D1 in Lr; cbn [length] in Lr; try lia. assert (Ry : 0 <= y < p). { rewrite D1 in Vr. specialize (Vr 0%nat ltac:(lia)). cbn [nth] in Vr. rewrite Vr. apply Z.mod_pos_bound. lia. }
  assert (EG : exists res, gen_res k p m sq nv 0 v old = Some (y :: res)).
  { unfold gen_res. rewrite D1. destruct HV as [Lv _]. destruct v as [|x [|? ?]]; cbn [length] in Lv; try lia. unfold store_row. cbn [nth_error]. unfold obind at 1 2 3 4. destruct nv as [|nv']; [lia|]. cbn [Nat.mul Nat.add Nat.sub repeat upd seq omap store_sq map upds obind]. unfold store_sq. cbn [Nat.sub seq map upds obind]. cbn [seq_loop]. rewrite Er. unfold obind at 1. rewrite D1. cbn [Nat.ltb Nat.leb nth_error]. unfold obind. cbn [Nat.mul upd]. eexists. reflexivity. }
  destruct EG as (res & EG).
  assert (Ey : y :: [y] = map (fun _ : nat => y) (seq 0 2)) by reflexivity.
  assert (HQ : hdeg p [-1; 1] 1).
  { split; [intros i Hi; destruct i as [|[|i]]; [lia|lia|]; unfold pc; destruct i; cbn [nth]; exists 0; ring|]. unfold pc. cbn [nth]. intros E. apply (eqp_small p 1) in E; lia. }
  destruct (C47_minimal p (fun _ => y) [-1; 1] 1 2 Hp HQ) as (B & w & EB & MB & Lw & _).
  { intros i. cbn [apply_at]. exists 0. ring. }
  { lia. }
  assert (EM : exists el, compute_minpoly p sqf sqpart 1 (y :: [y]) = Some (B, el) /\ ndeg el = 1).
  { unfold compute_minpoly. rewrite Ey, EB. unfold obind at 1. set (V := if (length (bV1 B) =? 1)%nat then [0; 1] else bV1 B).
    assert (MV : monic_of_degree p V 1).
    { unfold V. destruct MB as (L & T & RR). rewrite L. destruct w as [|[|w]]; [|cbn [Nat.eqb]; split; [exact L|split; [exact T|exact RR]]|lia]. cbn [Nat.eqb]. split; [reflexivity|]. split; [reflexivity|]. intros c [<-|[<-|[]]]; lia. }
    assert (ND : ndeg V = 1). { unfold ndeg. rewrite (proj1 MV). reflexivity. }
    exists V. split; [|exact ND]. destruct (SQ V 0%nat MV) as [[_ K] _]. rewrite (K (sqf_degree_one p V Hp MV)). rewrite ND. reflexivity. }
  destruct EM as (el & EM & NE).
  assert (ES : seq 0 nv = seq 0 (nv - 1) ++ [(nv - 1)%nat]). { replace nv with (S (nv - 1)) at 1 by lia. rewrite seq_S. reflexivity. }
  rewrite ES in EQ. apply Forall2_app_inv_l in EQ as (e1 & e2 & EQ1 & EQ2 & Ee). inversion EQ2 as [|? eq ? ? LR X1]; subst. inversion X1; subst. clear X1 EQ2.
  assert (L1 : length e1 = (nv - 1)%nat). { rewrite <- (F2_len _ _ _ EQ1). apply seq_length. }
  destruct LR as (Le & Re & Ze & Te & Ie). set (c0 := nth nv eq 0). assert (Rc : 0 <= c0 < p). { apply Re. apply nth_In. lia. }
  assert (MC : monic_of_degree p [c0; 1] 1). { split; [reflexivity|]. split; [reflexivity|]. intros c [<-|[<-|[]]]; [exact Rc|lia]. }
  assert (EIn : ideal nv p G (uni_at nv (nv - 1) [c0; 1])).
  { eapply I_eq; [exact Ie|]. intros x _. rewrite (uni_apply nv NV). unfold linear_form, X. cbn [apply_at]. rewrite xpow_0.
    rewrite (sumn_ext nv _ (fun k => if (k =? nv - 1)%nat then cf [(1, xpow nv k 1)] x else 0)).
    - rewrite sumn_delta by lia. exists 0. fold c0. ring.
    - intros i Hi. destruct (Nat.eqb_spec i (nv - 1)) as [->|N]; [rewrite Te; ring|]. rewrite Ze by lia. ring. }
  assert (FL : filter lin (seq 0 (nv - 1)) = seq 0 (nv - 1)). { apply filt_all. intros q Hq%in_seq. apply LN. lia. }
  assert (FN : filter (fun k => negb (lin k)) (seq 0 (nv - 1)) = []). { apply filt_none. intros q Hq%in_seq. rewrite LN by lia. reflexivity. }
  destruct (linear_loop_ok nv p G Hp PU NV 0 lin [c0; 1] MC EIn (nv - 1)%nat (rev e1) (repeat [] (nv - 1))) as (cs & Ec & Lc & Hc).
  { lia. }
  { rewrite FL. apply F2_rev. exact EQ1. }
  { apply repeat_length. }
  { intros q Hq. rewrite nth_repeat. split; [reflexivity|]. split; [cbn; lia|]. intros [C|C]; [rewrite LN in C by lia; discriminate|lia]. }
  exists [c0; 1], cs. split.
  - unfold fglm. replace (1518500213 <=? p) with false by (symmetry; apply Z.leb_gt; lia). rewrite (red_nz p Hp PU N2). rewrite D1, EG. unfold obind at 1.
    assert (EP : gen_pts 1 0 (y :: res) = Some (y :: [y])) by reflexivity. rewrite EP. unfold obind at 1. rewrite EM. unfold obind at 1. cbn [snd]. rewrite NE. cbn [Z.eqb Z.of_nat Pos.of_succ_nat Pos.eqb negb].
    rewrite app_length, L1. cbn [length]. replace (nv - 1 + 1 =? nv)%nat with true by (symmetry; apply Nat.eqb_eq; lia).
    replace (forallb lin (seq 0 (nv - 1))) with true by (symmetry; apply forallb_forall; intros q Hq%in_seq; apply LN; lia). cbn [negb].
    rewrite last_last. rewrite (nth_error_nth' eq 0) by lia. unfold obind at 1. fold c0. rewrite firstn_app, firstn_all2 by lia. replace (nv - 1 - length e1)%nat with 0%nat by lia. cbn [firstn]. rewrite app_nil_r, Ec. reflexivity.
  - split; [reflexivity|]. split; [reflexivity|]. split; [intros c [<-|[<-|[]]]; [exact Rc|lia]|]. split; [exact EIn|]. split; [exact Lc|]. intros q Hq. destruct (Hc q Hq) as (N1 & Ln1 & I1). split; [exact Ln1|]. split; [apply (nf_in p Hp); exact N1|]. split; [apply (nf_last p Hp); exact N1|exact I1].
Qed.
Print Assumptions C58_one.
