(** Polynomials in one variable modulo p and over the integers: greatest common divisors, squarefree polynomials and their derivative, linear dependence. *)
From Coq Require Import ZArith NArith Arith List Bool Lia Znumtheory Setoid Morphisms Ring.
From Verif Require Import LinSpec FpSpec ModInvModel NmodModel FpProofs BmProps ShapeProofs RurSpec RurProofs.
Import ListNotations.
Open Scope Z_scope.

Section Gcd.
Variable p : Z.
Hypothesis Pp : prime p.
Notation "a == b" := (peq p a b) (at level 70).
Add Ring rx_ring : (pring p) (setoid (peq_eq p) (prext p)).
Lemma pdvd_refl a : pdvd p a a. Proof. exists [1]. ring. Qed.
Lemma pdvd_trans a b c : pdvd p a b -> pdvd p b c -> pdvd p a c.
Proof. intros (x & X) (y & Y). exists (pmul y x). rewrite Y, X. ring. Qed.
Lemma pdvd_add a b c : pdvd p a b -> pdvd p a c -> pdvd p a (padd b c).
Proof. intros (x & X) (y & Y). exists (padd x y). rewrite X, Y. ring. Qed.
Lemma pdvd_mul a b c : pdvd p a b -> pdvd p a (pmul c b).
Proof. intros (x & X). exists (pmul c x). rewrite X. ring. Qed.
Lemma pdvd_ext a b c : b == c -> pdvd p a b -> pdvd p a c.
Proof. intros H (x & X). exists x. rewrite <- H. exact X. Qed.
Lemma division a b n : hdeg p b n -> exists q r, a == padd (pmul q b) r /\ dlt p r n.
Proof.
  intros H. assert (Hb : hdeg p (norm p b) n). { destruct H as [A B]. split; [intros i Hi; rewrite (norm_peq p Pp b i); apply A; exact Hi|intros K; apply B; rewrite <- (norm_peq p Pp b n); exact K]. }
  destruct (ndivrem_ok p Pp (norm p a) (norm p b) n (nf_norm p Pp a) (nf_norm p Pp b) Hb) as (q & r & _ & E & Dr & _). exists q, r. split; [|exact Dr]. rewrite (norm_peq p Pp a), (norm_peq p Pp b) in E. exact E.
Qed.
Lemma bezout_deg : forall n a b, dlt p b n -> exists g s t, g == padd (pmul s a) (pmul t b) /\ pdvd p g a /\ pdvd p g b.
Proof.
  induction n as [n IH] using (well_founded_induction lt_wf). intros a b Db. destruct (dlt_hdeg p Pp b n Db) as [Z0|(m & Hm & Hb)].
  - exists a, [1], []. split; [rewrite Z0; ring|]. split; [apply pdvd_refl|]. exists []. rewrite Z0. ring.
  - destruct (division a b m Hb) as (q & r & E & Dr). destruct (IH m Hm b r Dr) as (g & s & t & Eg & D1 & D2). exists g, t, (psub s (pmul t q)). split; [rewrite Eg, E; ring|]. split; [|exact D1].
    apply (pdvd_ext g (padd (pmul q b) r)); [symmetry; exact E|]. apply pdvd_add; [apply pdvd_mul; exact D1|exact D2].
Qed.
Lemma bezout a b : exists g s t, g == padd (pmul s a) (pmul t b) /\ pdvd p g a /\ pdvd p g b.
Proof. apply (bezout_deg (length b)). apply dlt_len. Qed.
Lemma hdeg_ext a b n : a == b -> hdeg p a n -> hdeg p b n.
Proof. intros E [A B]. split; [intros i Hi; rewrite <- (E i); apply A; exact Hi|intros K; apply B; rewrite (E n); exact K]. Qed.
Lemma pdvd_deg a b i j : pdvd p a b -> hdeg p a i -> hdeg p b j -> (i <= j)%nat.
Proof. intros (c & E) Ha Hb. destruct (hdeg_factor p Pp c a j (hdeg_ext _ _ _ E Hb)) as (x & y & _ & Hy & S1). pose proof (hdeg_uniq p a i y Ha Hy). lia. Qed.
Lemma unit_const g : hdeg p g 0 -> exists z, pscal z g == [1].
Proof.
  intros [A B]. destruct (zinv_ok p Pp (pc g 0) B) as [Z1 _]. exists (zinv p (pc g 0)). intros [|i]; rewrite pc_pscal; [rewrite Z1; reflexivity|]. rewrite (A (S i)) by lia. rewrite Z.mul_0_r. unfold pc. destruct i; reflexivity.
Qed.
Lemma hdeg_deriv g n : hdeg p g (S n) -> Z.of_nat (S n) < p -> hdeg p (pderiv g) n.
Proof.
  intros [A B] Hn. split.
  - intros i Hi. rewrite pc_pderiv. rewrite (A (S i)) by lia. rewrite Z.mul_0_r. reflexivity.
  - rewrite pc_pderiv. intros K. destruct (eqp_integral p Pp _ _ K) as [C|C]; [|contradiction]. destruct C as [z C]. assert (z <= 0 \/ 1 <= z) as [?|?] by lia; nia.
Qed.
(** A squarefree polynomial of degree below p has no common factor with its derivative. *)
Lemma squarefree_coprime e n : hdeg p e n -> Z.of_nat n < p -> squarefree p e -> exists s t, padd (pmul s e) (pmul t (pderiv e)) == [1].
Proof.
  intros He Hn SF. destruct (bezout e (pderiv e)) as (g & s & t & Eg & D1 & D2). assert (G0 : hdeg p g 0).
  2: { destruct (unit_const g G0) as (z & Hz). exists (pscal z s), (pscal z t). rewrite <- Hz, Eg. rewrite !pscal_pmul. ring. }
  destruct D1 as (h & Eh). destruct (hdeg_factor p Pp h g n (hdeg_ext _ _ _ Eh He)) as (i & j & Hi & Hj & Sij). destruct j as [|j]; [exact Hj|]. exfalso.
  destruct (bezout g h) as (c & x & y & Ec & C1 & C2).
  assert (C0 : hdeg p c 0). { apply SF. destruct C1 as (c1 & C1), C2 as (c2 & C2). exists (pmul c1 c2). rewrite Eh, C1, C2. ring. }
  destruct (unit_const c C0) as (z & Hz). assert (DG : pdvd p g (pderiv g)).
  { assert (DE : pderiv e == padd (pmul (pderiv h) g) (pmul h (pderiv g))) by (rewrite <- pderiv_mul; intros k; rewrite !pc_pderiv, (Eh (S k)); reflexivity).
    assert (K : pdvd p g (pmul h (pderiv g))). { destruct D2 as (d2 & D2). exists (psub d2 (pderiv h)). assert (Q : pmul h (pderiv g) == psub (pderiv e) (pmul (pderiv h) g)) by (rewrite DE; ring). rewrite Q, D2. ring. }
    destruct K as (k & K). exists (pmul [z] (padd (pmul x (pderiv g)) (pmul y k))). transitivity (pmul [1] (pderiv g)); [ring|]. rewrite <- Hz, Ec, pscal_pmul.
    transitivity (pmul [z] (padd (pmul (pmul x (pderiv g)) g) (pmul y (pmul h (pderiv g))))); [ring|]. rewrite K. ring. }
  pose proof (pdvd_deg g (pderiv g) (S j) j DG Hj (hdeg_deriv g j Hj ltac:(lia))). lia.
Qed.
End Gcd.

(** more vectors than coordinates: a relation with integer coefficients *)
Lemma zdependent : forall n (L : list (nat -> Z)), (n < length L)%nat -> exists cs, length cs = length L /\ (exists c, In c cs /\ c <> 0) /\ forall k, (k < n)%nat -> lc cs L k = 0.
Proof.
  induction n as [|n IH]; intros L HL.
  - destruct L as [|v L]; [cbn in HL; lia|]. exists (1 :: map (fun _ => 0) L). split; [cbn [length]; rewrite map_length; reflexivity|]. split; [exists 1; split; [left; reflexivity|lia]|]. intros k Hk. lia.
  - assert (C : (forall v, In v L -> v n = 0) \/ exists v, In v L /\ v n <> 0).
    { clear HL IH. induction L as [|v L IHL]; [left; intros v []|]. destruct (Z.eq_dec (v n) 0) as [E|E]; [|right; exists v; split; [left; reflexivity|exact E]]. destruct IHL as [A|(u & I & N)]; [left; intros u [->|I]; [exact E|exact (A u I)]|right; exists u; split; [right; exact I|exact N]]. }
    destruct C as [A|(v & I & N)].
    + destruct (IH L ltac:(lia)) as (cs & Lc & Nz & Z). exists cs. split; [exact Lc|]. split; [exact Nz|]. intros k Hk. destruct (Nat.eq_dec k n) as [->|Ne]; [|apply Z; lia]. clear - A. revert L A. induction cs as [|c cs IHc]; intros [|v L] A; cbn [lc]; try reflexivity. rewrite (A v (or_introl eq_refl)), IHc by (intros u I; apply A; right; exact I). ring.
    + apply in_split in I as (L1 & L2 & ->). rewrite app_length in HL. cbn [length] in HL. destruct (IH (map (fun u t => v n * u t - u n * v t) (L1 ++ L2))) as (cs & Lc & (c & Ic & Nc) & Z); [rewrite map_length, app_length; lia|]. rewrite map_length in Lc.
      set (c1 := firstn (length L1) cs). set (c2 := skipn (length L1) cs). assert (Ec : c1 ++ c2 = cs) by apply firstn_skipn. rewrite app_length in Lc. assert (Lc1 : length c1 = length L1) by (unfold c1; rewrite firstn_length; lia). assert (Lc2 : length c2 = length L2) by (unfold c2; rewrite skipn_length; lia).
      assert (EL : forall k, lc cs (L1 ++ L2) k = lc c1 L1 k + lc c2 L2 k) by (intros k; rewrite <- Ec; apply lc_app; exact Lc1).
      exists (map (Z.mul (v n)) c1 ++ (- lc cs (L1 ++ L2) n) :: map (Z.mul (v n)) c2). split; [rewrite !app_length; cbn [length]; rewrite !map_length; lia|]. split.
      * exists (v n * c). split; [|intros K; apply Z.mul_eq_0 in K as [K|K]; contradiction]. rewrite <- Ec in Ic. apply in_or_app. apply in_app_or in Ic as [Ic|Ic]; [left|right; right]; apply in_map; exact Ic.
      * intros k Hk. assert (E : lc (map (Z.mul (v n)) c1 ++ - lc cs (L1 ++ L2) n :: map (Z.mul (v n)) c2) (L1 ++ v :: L2) k = v n * lc cs (L1 ++ L2) k - lc cs (L1 ++ L2) n * v k).
        { rewrite lc_app by (rewrite map_length; exact Lc1). cbn [lc]. rewrite !lc_scal, (EL k). ring. }
        rewrite E. destruct (Nat.eq_dec k n) as [->|Ne]; [ring|]. rewrite <- (lc_elim cs v (v n) k n (L1 ++ L2)) by (rewrite app_length; lia). apply Z. lia.
Qed.

(** A nonzero vector of integers is a multiple of one that is not zero modulo p. *)
Lemma primitive p (c : list Z) : 1 < p -> (exists x, In x c /\ x <> 0) -> exists t c', t <> 0 /\ c = map (Z.mul t) c' /\ exists x, In x c' /\ ~ (p | x).
Proof.
  intros Hp (x & Hx & Nx). remember (Z.to_nat (Z.abs x)) as k eqn:Ek. revert x c Hx Nx Ek. induction k as [k IH] using (well_founded_induction lt_wf). intros x c Hx Nx ->.
  assert (C : (forall y, In y c -> (p | y)) \/ exists y, In y c /\ ~ (p | y)).
  { clear. induction c as [|a c IHc]; [left; intros y []|]. destruct (Zdivide_dec p a) as [E|E]; [|right; exists a; split; [left; reflexivity|exact E]]. destruct IHc as [A|(y & I & N)]; [left; intros y [<-|I]; auto|right; exists y; split; [right; exact I|exact N]]. }
  destruct C as [A|(y & I & N)].
  - assert (Ec : c = map (Z.mul p) (map (fun y => y / p) c)). { rewrite map_map. rewrite <- (map_id c) at 1. apply map_ext_in. intros y Hy. apply Z_div_exact_full_2; [lia|]. apply Zdivide_mod. apply A. exact Hy. }
    destruct (A x Hx) as [z Ez]. assert (Ex : x / p = z) by (rewrite Ez; apply Z.div_mul; lia). assert (Nz : z <> 0) by (intros ->; lia).
    destruct (IH (Z.to_nat (Z.abs z)) ltac:(nia) z (map (fun y => y / p) c) ltac:(rewrite <- Ex; apply (in_map (fun y => y / p)); exact Hx) Nz eq_refl) as (t & c' & Nt & E' & Q). exists (p * t), c'. split; [nia|]. split; [|exact Q]. rewrite Ec, E', map_map. apply map_ext. intros y. ring.
  - exists 1, c. split; [lia|]. split; [rewrite <- (map_id c) at 1; apply map_ext; intros; ring|]. exists y. split; assumption.
Qed.

(** E is, up to a factor, a lift of a squarefree polynomial modulo p of the same degree d < p: E and its derivative are coprime over the rationals. *)
Section Sep.
Variables (p : Z) (E : list Z) (d : nat) (e : list Z).
Hypothesis Pp : prime p.
Hypothesis D0 : (0 < d)%nat.
Hypothesis Dp : Z.of_nat d < p.
Hypothesis LE : length E = S d.
Hypothesis NE : ~ (p | nth d E 0).
Hypothesis SF : squarefree p e.
Hypothesis EE : exists a, peq p E (pscal a e).
Notation "a == b" := (peq p a b) (at level 70).
Add Ring rx_ring2 : (pring p) (setoid (peq_eq p) (prext p)).
Let HE : hdeg p E d.
Proof. split; [rewrite <- LE; apply dlt_len|]. intros [z K]. apply NE. exists z. unfold pc in K. lia. Qed.
Lemma sep_coprime : exists s t, padd (FpSpec.pmul s E) (FpSpec.pmul t (pderiv E)) == [1].
Proof.
  apply (squarefree_coprime p Pp E d HE Dp). intros g (c & Hc). destruct EE as (a & Ea). apply SF.
  assert (Na : ~ eqp p a 0). { intros K. apply (hdeg_nz p E d HE). intros i. rewrite (Ea i), pc_pscal, K, pc_nil. reflexivity. }
  destruct (zinv_ok p Pp a Na) as [Z1 _]. exists (pscal (zinv p a) c). transitivity (pscal (zinv p a) E); [intros i; rewrite pc_pscal, (Ea i), pc_pscal, Z.mul_assoc, Z1, Z.mul_1_l; reflexivity|]. rewrite Hc, !pscal_pmul. ring.
Qed.
(** no relation u E + v E' = 0 with small degrees *)
Lemma sep_mod u v : (length v <= d)%nat -> padd (FpSpec.pmul u E) (FpSpec.pmul v (pderiv E)) == [] -> u == [] /\ v == [].
Proof.
  intros Lv H. destruct sep_coprime as (s & t & ST). assert (DV : pdvd p E v).
  { exists (psub (FpSpec.pmul v s) (FpSpec.pmul t u)). transitivity (FpSpec.pmul v (padd (FpSpec.pmul s E) (FpSpec.pmul t (pderiv E)))); [rewrite ST; ring|].
    transitivity (padd (FpSpec.pmul (psub (FpSpec.pmul v s) (FpSpec.pmul t u)) E) (FpSpec.pmul t (padd (FpSpec.pmul u E) (FpSpec.pmul v (pderiv E))))); [ring|]. rewrite H. ring. }
  assert (V0 : v == []). { destruct (dlt_hdeg p Pp v d ltac:(apply (dlt_le p v (length v)); [exact Lv|apply dlt_len])) as [Z0|(j & Hj & Hv)]; [exact Z0|]. pose proof (pdvd_deg p Pp E v d j DV HE Hv). lia. }
  split; [|exact V0]. rewrite V0 in H. assert (K : FpSpec.pmul u E == []) by (rewrite <- H; ring). destruct (pmul_integral p Pp u E K) as [Q|Q]; [exact Q|]. elim (hdeg_nz p E d HE Q).
Qed.
End Sep.
Lemma lc_pmul f a : forall s k, lc a (map (fun i => pc (pshift i f)) (seq s (length a))) k = pc (pshift s (FpSpec.pmul a f)) k.
Proof.
  induction a as [|x a IH]; intros s k; [cbn [lc FpSpec.pmul]; rewrite pc_pshift; destruct (k <? s)%nat; [reflexivity|rewrite pc_nil; reflexivity]|].
  cbn [length seq map lc]. rewrite IH, !pc_pshift. destruct (Nat.ltb_spec k s) as [K|K]; [destruct (Nat.ltb_spec k (S s)); [ring|lia]|]. rewrite pc_pmul_cons. destruct (Nat.ltb_spec k (S s)) as [L|L]; [replace (k - s)%nat with 0%nat by lia; ring|]. replace (k - s)%nat with (S (k - S s)) by lia. ring.
Qed.
Lemma app_split {A} (a b c d : list A) : length a = length c -> a ++ b = c ++ d -> a = c /\ b = d.
Proof. revert c. induction a as [|x a IH]; intros [|y c] L H; try discriminate L; [split; [reflexivity|exact H]|]. injection H as -> H. destruct (IH c ltac:(cbn in L; lia) H) as [-> ->]. split; reflexivity. Qed.
Lemma zmod_peq p a b : FpSpec.peq 0 a b -> FpSpec.peq p a b.
Proof. intros H i. destruct (H i) as [z Hz]. exists 0. lia. Qed.
Lemma pmul_scale t a b i : pc (FpSpec.pmul (map (Z.mul t) a) b) i = t * pc (FpSpec.pmul a b) i.
Proof. change (map (Z.mul t) a) with (pscal t a). pose proof (pmul_scal_l 0 t a b i) as [z Hz]. rewrite pc_pscal in Hz. lia. Qed.
Lemma separable_of p E d e : prime p -> (0 < d)%nat -> Z.of_nat d < p -> length E = S d -> ~ (p | nth d E 0) -> squarefree p e -> (exists a, FpSpec.peq p E (pscal a e)) -> separable E.
Proof.
  intros Pp D0 Dp LE NE SF EE. set (E' := pderiv E). assert (LE' : length E' = d) by (unfold E', pderiv; rewrite map_length, seq_length; lia).
  set (L := map (fun i => pc (pshift i E)) (seq 0 (d - 1)) ++ map (fun j => pc (pshift j E')) (seq 0 d) ++ [pc [1]]).
  destruct (zdependent (2 * d - 1) L) as (cs & Lc & (x & Hx & Nx) & H); [unfold L; rewrite !app_length, !map_length, !seq_length; cbn; lia|].
  unfold L in Lc. rewrite !app_length, !map_length, !seq_length in Lc. cbn [length] in Lc.
  set (a := firstn (d - 1) cs). set (r := skipn (d - 1) cs). assert (Ec : a ++ r = cs) by apply firstn_skipn. assert (La : length a = (d - 1)%nat) by (unfold a; rewrite firstn_length; lia). assert (Lr : length r = (d + 1)%nat) by (unfold r; rewrite skipn_length; lia).
  set (b := firstn d r). set (w0 := skipn d r). assert (Er : b ++ w0 = r) by apply firstn_skipn. assert (Lb : length b = d) by (unfold b; rewrite firstn_length; lia). assert (Lw : length w0 = 1%nat) by (unfold w0; rewrite skipn_length; lia). destruct w0 as [|w [|? ?]]; try discriminate Lw. clearbody a r b. subst r. subst cs.
  assert (HS : forall k, pc (FpSpec.pmul a E) k + pc (FpSpec.pmul b E') k + w * pc [1] k = 0).
  { intros k. destruct (Nat.lt_ge_cases k (2 * d - 1)) as [Hk|Hk].
    - specialize (H k Hk). unfold L in H. rewrite !lc_app in H; [|rewrite map_length, seq_length; exact Lb|rewrite map_length, seq_length; exact La]. rewrite <- La in H at 1. rewrite <- Lb in H at 1. rewrite !lc_pmul in H. cbn [lc] in H. rewrite !pc_pshift, !Nat.sub_0_r in H. change (k <? 0)%nat with false in H. cbv iota in H. lia.
    - assert (K1 : pc (FpSpec.pmul a E) k = 0). { destruct (Nat.eq_dec d 1) as [E1|E1]; [subst d; destruct a; [apply pc_nil|cbn in La; lia]|]. destruct (dlt_mul_l 0 a E (length a) d (dlt_len 0 a) ltac:(rewrite <- LE; apply dlt_len) k ltac:(lia)) as [z Hz]. lia. }
      assert (K2 : pc (FpSpec.pmul b E') k = 0). { destruct (dlt_mul_l 0 b E' (length b) (d - 1) (dlt_len 0 b) ltac:(replace (S (d - 1)) with (length E') by lia; apply dlt_len) k ltac:(lia)) as [z Hz]. lia. }
      rewrite K1, K2, (pc_over [1] k) by (cbn; lia). ring. }
  destruct (Z.eq_dec w 0) as [->|Nw].
  - exfalso. assert (Hx' : In x (a ++ b)). { rewrite app_assoc in Hx. apply in_app_or in Hx as [Hx|[Hx|[]]]; [exact Hx|congruence]. }
    destruct (primitive p (a ++ b) ltac:(destruct Pp; assumption) (ex_intro _ x (conj Hx' Nx))) as (t & c' & Nt & Et & (y & Hy & Ny)).
    set (a' := firstn (d - 1) c'). set (b' := skipn (d - 1) c'). assert (Ec : c' = a' ++ b') by (symmetry; apply firstn_skipn).
    assert (Lc' : length c' = (d - 1 + d)%nat) by (apply (f_equal (@length Z)) in Et; rewrite map_length, app_length in Et; lia).
    assert (La' : length a' = (d - 1)%nat) by (unfold a'; rewrite firstn_length; lia). assert (Lb' : length b' = d) by (unfold b'; rewrite skipn_length; lia). clearbody a' b'. subst c'. rewrite map_app in Et.
    assert (Sp : a = map (Z.mul t) a' /\ b = map (Z.mul t) b'). { apply app_split; [rewrite map_length; lia|exact Et]. }
    destruct Sp as [-> ->]. assert (Z0 : FpSpec.peq p (padd (FpSpec.pmul a' E) (FpSpec.pmul b' E')) []).
    { intros k. rewrite pc_padd, pc_nil. specialize (HS k). rewrite !pmul_scale in HS. assert (K : t * (pc (FpSpec.pmul a' E) k + pc (FpSpec.pmul b' E') k) = 0) by lia. apply Z.mul_eq_0 in K as [K|K]; [contradiction|]. rewrite K. reflexivity. }
    destruct (sep_mod p E d e Pp D0 Dp LE NE SF EE a' b' ltac:(lia) Z0) as [A0 B0]. apply Ny. apply in_app_or in Hy as [Hy|Hy]; apply (In_nth _ _ 0) in Hy as (i & _ & <-); [specialize (A0 i)|specialize (B0 i)].
    + rewrite pc_nil in A0. destruct A0 as [z Hz]. exists z. unfold pc in Hz. lia.
    + rewrite pc_nil in B0. destruct B0 as [z Hz]. exists z. unfold pc in Hz. lia.
  - exists a, b, (- w). split; [lia|]. intros k. rewrite pc_padd. specialize (HS k). fold E'. exists 0. assert (pc [- w] k = - w * pc [1] k) by (unfold pc; destruct k as [|[|k]]; cbn; ring). lia.
Qed.
