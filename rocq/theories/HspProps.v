(** Property C74: the rare branch of the inversion of Hankel matrices in the change of order. *)
From Coq Require Import ZArith NArith Arith List Bool Lia Znumtheory Setoid Morphisms.
From Verif Require Import LinSpec MonoSpec GbSpec GbProofs GbIdeal FpSpec FglmSpec ModInvModel NmodModel FpProofs BmModel BmProofs BmProps FglmModel MatVecProofs HankelProofs ShapeProofs ParamProofs FglmCore FglmProps FglmExample HspModel.
Import ListNotations.
Open Scope Z_scope.

(** The sequence s is singular in the middle: the square matrix s_(i+j+1), with one row less than the matrix to be inverted, has
    a nontrivial kernel modulo p. *)
Definition mid_singular (p : Z) (n : nat) (s : nat -> Z) : Prop :=
  exists w : nat -> Z, (exists j, (j < n)%nat /\ ~ eqp p (w j) 0) /\ forall i, (i < n)%nat -> eqp p (sumn n (fun j => s (i + j + 1)%nat * w j)) 0.

Lemma eqp_of_eq p a b : a = b -> eqp p a b.
Proof. intros ->. exists 0. ring. Qed.

(** When the branch is taken. *)
Theorem C74_when : forall k p sqf sqpart m sq nv bs lin eqs v old M v0 V,
  prime p -> p <> 2 -> p < 1518500213 -> sqf_contract p sqf sqpart -> represents p m M -> (1 <= nv)%nat -> (2 <= m_ncols m)%nat ->
  (1 <= bs <= nv)%nat -> (bs < m_ncols m)%nat -> length eqs <> nv -> length old = m_ncols m -> holds_vec p (m_ncols m) v v0 ->
  monic_of_degree p V (m_ncols m) -> minimal_polynomial p V (fun i => mpow (m_ncols m) M v0 i 0%nat) -> squarefree p V ->
  fglm k p sqf sqpart m sq nv bs lin eqs v old = Some Special <-> mid_singular p (m_ncols m - 1) (fun i => mpow (m_ncols m) M v0 i 0%nat).
Proof.
  intros k p sqf sqpart m sq nv bs lin eqs v old M v0 V Hp N2 PU SQ R NV D2 [B1 BN] BD LE LO HV MVd MVm SF. pose proof (p2 p Hp) as P2.
  destruct (minpoly_cases k p sqf sqpart m sq nv bs v old M v0 Hp PU SQ R NV ltac:(lia) B1 BN ltac:(lia) LO HV) as (res & pts & B & e & w & E1 & E2 & Ep & E3 & MB & Lw & MV & C).
  assert (EV : V = bV1 B) by (apply (C47_unique p (fun i => mpow (m_ncols m) M v0 i 0%nat) V (bV1 B) (m_ncols m) w); assumption).
  assert (Ew : w = m_ncols m) by (destruct MB as (L1 & _), MVd as (L2 & _); rewrite EV in L2; lia).
  destruct C as [(Ee & _ & _)|[(_ & W)|(D1' & _)]]; [| |lia].
  2: { specialize (W Ew). rewrite <- EV in W. destruct (m_ncols m) as [|d0]; [lia|]. apply (SQ _ _ MVd) in SF. congruence. }
  unfold fglm. rewrite (proj2 (Z.leb_gt _ _)) by exact PU. rewrite (red_nz p Hp PU N2). rewrite E1. unfold obind at 1. rewrite E2. unfold obind at 1. rewrite E3. unfold obind at 1. cbn [snd].
  assert (Le : length e = S (m_ncols m)) by (rewrite Ee; rewrite <- Ew; apply MB). unfold ndeg. rewrite Le. destruct (Z.eqb_spec (Z.of_nat (S (m_ncols m)) - 1) (Z.of_nat (m_ncols m))) as [_|?]; [|lia]. cbn [negb]. rewrite (proj2 (Nat.eqb_neq _ _) LE).
  clear E1 E2 E3 HV LO Lw LE Le. subst w e V. remember (m_ncols m) as DD eqn:ED. destruct DD as [|d]; [lia|]. replace (S d - 1)%nat with d by lia. 
  destruct (nf_of_monic p Hp _ _ MB) as [Ne De]. set (hh := fun i => hs d M v0 i mod p).
  assert (NS : nonsing p d hh). { intros x Hx. apply (hankel_nonsing p Hp d M v0 (bV1 B) De MV x). intros i Hi. rewrite <- (hmul_mod p Hp (hs d M v0) (S d) x i). apply Hx. exact Hi. }
  destruct (invert_hankel_ok p Hp d hh NS pts) as (r & Z1 & Z2 & EI & (_ & _ & _ & _ & HY & _) & C).
  { rewrite Ep, map_length, seq_length. lia. }
  { rewrite Ep, firstn_map. unfold hh. f_equal. replace (2 * S d)%nat with (2 * S d - 1 + 1)%nat at 2 by lia. rewrite seq_app, firstn_app, seq_length, Nat.sub_diag. cbn [firstn]. rewrite app_nil_r. apply firstn_all2. rewrite seq_length. lia. }
  rewrite EI. unfold obind at 1.
  assert (HS : forall i, eqp p (hh i) (mpow (S d) M v0 i 0%nat)) by (intros i; unfold hh, hs; apply eqp_mod; lia).
  assert (K : eqp p (pc Z1 0) 0 <-> mid_singular p d (fun i => mpow (S d) M v0 i 0%nat)).
  { split.
    - intros K. exists (fun j => pc Z1 (d - j)). split.
      + destruct (forallb (fun j => (pc Z1 (d - j) mod p =? 0)) (seq 0 d)) eqn:F.
        * exfalso. rewrite forallb_forall in F. specialize (HY 0%nat ltac:(lia)). unfold hmul, delta in HY. cbn [Nat.eqb] in HY. apply (one_ne p Hp). rewrite <- HY. 
          rewrite (sumn_eqp p (S d) _ (fun _ => 0)); [rewrite sumn_zero_ext by reflexivity; reflexivity|]. intros j Hj. destruct (Nat.eq_dec j d) as [->|Nj]; [rewrite Nat.sub_diag, K, Z.mul_0_r; reflexivity|]. specialize (F j ltac:(apply in_seq; lia)). apply Z.eqb_eq in F. assert (Zj : eqp p (pc Z1 (d - j)) 0) by (rewrite <- (eqp_mod p (pc Z1 (d - j))) by lia; rewrite F; reflexivity). rewrite Zj, Z.mul_0_r. reflexivity.
        * assert (X : exists j, In j (seq 0 d) /\ (pc Z1 (d - j) mod p =? 0) = false). { clear -F. induction (seq 0 d) as [|a l IH]; [discriminate|]. cbn [forallb] in F. destruct (pc Z1 (d - a) mod p =? 0) eqn:Ea; [destruct (IH F) as (j & Hj & Ej); exists j; split; [right; exact Hj|exact Ej]|exists a; split; [left; reflexivity|exact Ea]]. }
          destruct X as (j & Hj & Ej). apply in_seq in Hj. exists j. split; [lia|]. intros Q. apply Z.eqb_neq in Ej. apply Ej. destruct Q as [z Hz]. rewrite <- (Z.mod_mul z p) by lia. f_equal. lia.
      + intros i Hi. specialize (HY (S i) ltac:(lia)). unfold hmul, delta in HY. cbn [Nat.eqb sumn] in HY. rewrite Nat.sub_diag, K, Z.mul_0_r, Z.add_0_r in HY. rewrite <- HY. apply sumn_eqp. intros j _. rewrite <- (HS (i + j + 1)%nat). replace (i + j + 1)%nat with (S i + j)%nat by lia. reflexivity.
    - intros (w & (j0 & Hj0 & Nw) & Hw). set (w' := fun j => if (j <? d)%nat then w j else 0).
      assert (HW : forall i, (i < S d)%nat -> eqp p (hmul hh (S d) w' i) (hmul hh (S d) w' 0 * delta i 0)).
      { intros i Hi. unfold delta. destruct i as [|i]; [cbn [Nat.eqb]; rewrite Z.mul_1_r; reflexivity|]. cbn [Nat.eqb]. rewrite Z.mul_0_r. unfold hmul. cbn [sumn]. unfold w' at 2. rewrite Nat.ltb_irrefl, Z.mul_0_r, Z.add_0_r. rewrite <- (Hw i ltac:(lia)). apply sumn_eqp. intros j Hj. unfold w'. rewrite (proj2 (Nat.ltb_lt _ _) Hj). rewrite <- (HS (i + j + 1)%nat). replace (i + j + 1)%nat with (S i + j)%nat by lia. reflexivity. }
      set (c := hmul hh (S d) w' 0) in *.
      assert (Q : forall j, (j < S d)%nat -> eqp p (w' j) (c * pc Z1 (d - j))).
      { intros j Hj. assert (U : eqp p (w' j - c * pc Z1 (d - j)) 0).
        { apply (NS (fun j => w' j - c * pc Z1 (d - j))); [|exact Hj]. intros i Hi. transitivity (hmul hh (S d) w' i - c * hmul hh (S d) (fun j => pc Z1 (d - j)) i).
          - unfold hmul. rewrite <- sumn_scal. apply eqp_of_eq. rewrite (sumn_ext (S d) (fun j => hh (i + j)%nat * (w' j - c * pc Z1 (d - j))) (fun j => hh (i + j)%nat * w' j + (-1) * (c * (hh (i + j)%nat * pc Z1 (d - j))))) by (intros; ring). rewrite sumn_add, (sumn_scal (S d) (-1)). ring.
          - rewrite (HW i Hi), (HY i Hi). apply eqp_of_eq. ring. }
        destruct U as [z Hz]. exists z. lia. }
      assert (Nc : ~ eqp p c 0).
      { intros Z0. apply Nw. specialize (Q j0 ltac:(lia)). unfold w' in Q. rewrite (proj2 (Nat.ltb_lt _ _) Hj0) in Q. rewrite Q, Z0, Z.mul_0_l. reflexivity. }
      specialize (Q d ltac:(lia)). unfold w' in Q. rewrite Nat.ltb_irrefl, Nat.sub_diag in Q. symmetry in Q. apply (eqp_integral p Hp) in Q as [Q|Q]; [contradiction|exact Q]. }
  rewrite <- K. destruct C as [(NZ1 & ->)|(Z0 & ->)].
  - split; [|contradiction]. intros F. exfalso. destruct (coords_loop _ _ _ _ _ _ _ _ _ _ _ _ _); cbn [obind] in F; [|discriminate]. destruct (linear_loop _ _ _ _ _ _ _); cbn [obind] in F; discriminate.
  - split; [intros _; exact Z0|reflexivity].
Qed.
Print Assumptions C74_when.

(** Otherwise the result is the one of the model of C58. *)
Theorem C74_same : forall k p sqf sqpart m sq nv bs lin eqs v old rest r, fglm k p sqf sqpart m sq nv bs lin eqs v old = Some r -> r <> Special ->
  fglm_all k p sqf sqpart m sq nv bs lin eqs v old rest = Some r.
Proof. intros k p sqf sqpart m sq nv bs lin eqs v old rest r E N. unfold fglm_all. rewrite E. unfold obind. destruct r; try reflexivity. contradiction. Qed.
Print Assumptions C74_same.

Lemma points_len k p m sq nv bs v old res pts D : gen_res k p m sq nv bs v old = Some res -> gen_pts D bs res = Some pts -> length pts = (2 * D)%nat.
Proof.
  intros _. unfold gen_pts. generalize (fun i => nth_error res (i * bs)). intros f. rewrite <- (seq_length (2 * D) 0) at 2. generalize (seq 0 (2 * D)). intros l. revert pts. induction l as [|x l IH]; intros pts E; cbn [omap] in E; [injection E as <-; reflexivity|]. destruct (f x); cbn [obind] in E; [|discriminate]. destruct (omap f l) as [r|] eqn:F; cbn [obind] in E; [|discriminate]. injection E as <-. cbn [length]. f_equal. apply IH. reflexivity.
Qed.
(** The branch reads one entry more than there are points: when the array has no entry behind the points, as for the first
    prime, that is out of bounds. *)
Theorem C74_out_of_bounds : forall k p sqf sqpart m sq nv bs lin eqs v old, fglm k p sqf sqpart m sq nv bs lin eqs v old = Some Special ->
  fglm_all k p sqf sqpart m sq nv bs lin eqs v old [] = None.
Proof.
  intros k p sqf sqpart m sq nv bs lin eqs v old E. unfold fglm_all. rewrite E. unfold obind at 1. destruct (gen_res k p m sq nv bs v old) as [res|] eqn:E1; [|reflexivity]. unfold obind at 1. destruct (gen_pts (m_ncols m) bs res) as [pts|] eqn:E2; [|reflexivity]. unfold obind at 1. destruct (compute_minpoly _ _ _ _ _); [|reflexivity]. unfold obind at 1.
  pose proof (points_len _ _ _ _ _ _ _ _ _ _ _ E1 E2) as L. unfold hankel_special. rewrite app_nil_r. rewrite firstn_length, app_length, rev_length, firstn_length, skipn_length, L. destruct (Nat.ltb_spec (Nat.min (2 * m_ncols m + 1) (Nat.min (2 * m_ncols m - 1) (2 * m_ncols m) + (2 * m_ncols m - (2 * m_ncols m - 1)))) (2 * m_ncols m + 1)) as [_|H]; [reflexivity|]. lia.
Qed.
Print Assumptions C74_out_of_bounds.

Lemma em_big p n rt c : prime p -> (8 <= n)%nat -> ~ eqp p c 0 -> length rt = S n -> em_gcd_pre p n (rt ++ [c]) = None.
Proof.
  intros Hp Hn Hc L. unfold em_gcd_pre. cbn [qR0 qR1]. assert (H : length (norm p (rt ++ [c])) = S (S n)).
  { apply (nf_len p Hp); [apply nf_norm; exact Hp|]. split.
    - intros i Hi. rewrite (norm_peq p Hp (rt ++ [c]) i). rewrite pc_over by (rewrite app_length; cbn [length]; lia). reflexivity.
    - rewrite (norm_peq p Hp (rt ++ [c]) (S n)). unfold pc. rewrite app_nth2 by lia. rewrite L, Nat.sub_diag. exact Hc. }
  unfold ndeg. rewrite H. destruct (Z.ltb_spec (2 * (Z.of_nat (S (S n)) - 1)) (Z.of_nat n)) as [?|_]; [lia|]. unfold euclid_step. cbn [qR0 qR1 qV0 qV1]. destruct (ndivrem p (nshift p n [1]) (norm p (rt ++ [c]))); [|reflexivity]. unfold obind. cbn [qR0]. rewrite H.
  destruct (Z.ltb_spec (Z.of_nat (S (S n)) - 1 - (Z.of_nat n - (Z.of_nat (S (S n)) - 1))) 10) as [?|_]; [lia|]. destruct (Z.ltb_spec (Z.of_nat n - (Z.of_nat (S (S n)) - 1)) 0) as [_|?]; [reflexivity|lia].
Qed.
(** With four solutions or more it always ends in a copy from in front of an array, whatever the memory contains. *)
Theorem C74_large : forall k p sqf sqpart m sq nv bs lin eqs v old rest, prime p -> (4 <= m_ncols m)%nat -> fglm k p sqf sqpart m sq nv bs lin eqs v old = Some Special ->
  fglm_all k p sqf sqpart m sq nv bs lin eqs v old rest = None.
Proof.
  intros k p sqf sqpart m sq nv bs lin eqs v old rest Hp D4 E. unfold fglm_all. rewrite E. unfold obind at 1. destruct (gen_res k p m sq nv bs v old) as [res|] eqn:E1; [|reflexivity]. unfold obind at 1. destruct (gen_pts (m_ncols m) bs res) as [pts|] eqn:E2; [|reflexivity]. unfold obind at 1. destruct (compute_minpoly _ _ _ _ _); [|reflexivity]. unfold obind at 1.
  unfold hankel_special. set (q := firstn _ _). destruct (Nat.ltb_spec (length q) (2 * m_ncols m + 1)) as [_|H]; [reflexivity|]. unfold attempt at 1. unfold rt_down. rewrite app_comm_cons. rewrite (em_big p (length q) (1 :: rev q) 1 Hp); [reflexivity|lia|apply one_ne; exact Hp|cbn [length]; rewrite rev_length; reflexivity].
Qed.
Print Assumptions C74_large.

(** in the example of C58 the only right coordinate is -x1^2 *)
Lemma right_coord c : (forall x, In x c -> 0 <= x < 101) -> (length c <= 3)%nat -> last c 1 <> 0 -> ideal 2 101 ex_G (coord_poly 2 0 1 c) -> c = [0; 0; 100].
Proof.
  intros Rc Lc Tc H. assert (Q : forall i, (i < 3)%nat -> eqp 101 (pc c i + (if (i =? 2)%nat then 1 else 0)) 0).
  { apply (ex_independent (fun i => pc c i + (if (i =? 2)%nat then 1 else 0))). assert (G1 : ideal 2 101 ex_G (fun m => pc c 2 * cf ex_g1 m)) by (apply (lspan_scale 2 101 _ (pc c 2)); apply (ideal_gen 2 101 ex_G (cf ex_g1)); left; reflexivity).
    eapply I_eq; [apply lspan_add; [exact H|exact G1]|]. intros m Hm. cbv beta. unfold coord_poly, uni_at, ex_g1. cbn [sumn Nat.eqb]. change (ex_b 0) with (cf [(1, [0; 0]%N)]). change (ex_b 1) with (cf [(1, [0; 1]%N)]). change (ex_b 2) with (cf [(1, [1; 0]%N)]).
    destruct c as [|a [|b [|z [|? ?]]]]; cbn [length] in Lc; try lia; unfold pc; cbn [length seq map nth cf fst snd]; unfold xpow; cbn [seq map Nat.eqb]; change (N.of_nat 0) with 0%N; change (N.of_nat 1) with 1%N; change (N.of_nat 2) with 2%N; exists 0; cbn [cf fst snd];
      destruct (mono_dec [0; 0]%N m), (mono_dec [0; 1]%N m), (mono_dec [1; 0]%N m), (mono_dec [0; 2]%N m); ring. }
  pose proof (Q 0%nat ltac:(lia)) as Q0. pose proof (Q 1%nat ltac:(lia)) as Q1. pose proof (Q 2%nat ltac:(lia)) as Q2. cbn [Nat.eqb] in Q0, Q1, Q2. destruct Q0 as [x0 Q0], Q1 as [x1 Q1], Q2 as [x2 Q2].
  destruct c as [|a [|b [|z [|? ?]]]]; cbn [length] in Lc; unfold pc in Q0, Q1, Q2; cbn [nth] in Q0, Q1, Q2; try lia.
  pose proof (Rc a ltac:(left; reflexivity)). pose proof (Rc b ltac:(right; left; reflexivity)). pose proof (Rc z ltac:(right; right; left; reflexivity)). f_equal; [lia|]. f_equal; [lia|]. f_equal. lia.
Qed.
Definition special_run (j : Z) : option fglm_res := fglm_all Scalar 101 (ex_sqf 101) (ex_sqpart 101) ex_m (fun _ _ => 0) 2 2 (fun _ => false) [] [33; 1; 0] [0; 0; 0] [j].
(** Even when the entry behind the points exists: a parametrisation is returned for the ideal of C58_ex with the random vector 33, 1, 0
    and (almost) every content of that entry, and it is never the right one. *)
Theorem C74_wrong : fglm Scalar 101 (ex_sqf 101) (ex_sqpart 101) ex_m (fun _ _ => 0) 2 2 (fun _ => false) [] [33; 1; 0] [0; 0; 0] = Some Special /\
  (forall j, 0 <= j < 101 -> j <> 19 -> j <> 34 -> exists elim cs, special_run j = Some (Param elim cs)) /\
  (forall j elim cs, 0 <= j < 101 -> special_run j = Some (Param elim cs) -> ~ parametrises 2 101 ex_G 3 elim cs).
Proof.
  split; [vm_compute; reflexivity|].
  assert (F : forallb (fun i => match special_run (Z.of_nat i) with Some (Param _ [c]) => negb (if list_eq_dec Z.eq_dec c [0; 0; 100] then true else false) | Some (Param _ _) => false | _ => (i =? 19)%nat || (i =? 34)%nat end) (seq 0 101) = true) by (vm_compute; reflexivity).
  rewrite forallb_forall in F. split.
  - intros j Hj N1 N2. specialize (F (Z.to_nat j) ltac:(apply in_seq; lia)). rewrite Z2Nat.id in F by lia. destruct (special_run j) as [[e cs| | | |]|]; [exists e, cs; reflexivity| | | | |]; exfalso; apply Bool.orb_true_iff in F as [F|F]; apply Nat.eqb_eq in F; lia.
  - intros j elim cs Hj E P. specialize (F (Z.to_nat j) ltac:(apply in_seq; lia)). rewrite Z2Nat.id in F by lia. rewrite E in F. destruct cs as [|c [|? ?]]; try discriminate F. destruct P as (_ & _ & _ & _ & _ & P). destruct (P 0%nat ltac:(lia)) as (L & R & T & I0). cbn [nth] in *. pose proof (right_coord c R L T I0) as ->. destruct (list_eq_dec Z.eq_dec [0; 0; 100] [0; 0; 100]); [discriminate F|contradiction].
Qed.
Print Assumptions C74_wrong.
(** the vector is indeed singular in the middle: the matrix (1, 0; 0, 0); and the hypotheses of C74_when are met *)
Example C74_when_ex : mid_singular 101 2 (fun i => mpow 3 ex_M (fun j => nth j [33; 1; 0] 0) i 0%nat).
Proof. exists (fun j => if (j =? 1)%nat then 1 else 0). split; [exists 1%nat; split; [lia|]; cbn; intros [z Hz]; lia|]. intros i Hi. destruct i as [|[|?]]; [| |lia]; vm_compute; [exists 0|exists 1]; reflexivity. Qed.
(** x^4 - x - 2: the branch is taken for the random vector 50, 1, 0, 0 *)
Definition ex_m4 : sp_mat := {| m_ncols := 4; m_nrows := 1; m_dense := [2; 1; 0; 0]; m_triv_idx := [0; 1; 2]%nat; m_triv_pos := [1; 2; 3]%nat; m_dense_idx := [3%nat]; m_dst := [2%nat] |}.
Example C74_large_ex : fglm Scalar 101 (ex_sqf 101) (ex_sqpart 101) ex_m4 (fun _ _ => 0) 1 1 (fun _ => false) [] [50; 1; 0; 0] [0; 0; 0; 0] = Some Special.
Proof. vm_compute. reflexivity. Qed.
