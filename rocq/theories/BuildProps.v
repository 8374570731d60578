(** C55, C59: the input of the change of order built from a reduced Groebner basis modulo p: the table of linear forms and the
    matrix of the multiplication by the last variable. *)
From Coq Require Import ZArith NArith Arith List Bool Lia Sorted Znumtheory Zpow_facts.
From Verif Require Import ModInvModel LinSpec MonoSpec MonoSpecProofs MonoModel MonoCmpProofs HilbSpec GbSpec GbProofs GbIdeal F4Model UpdProps F4Rows RoundProofs FinalProofs F4Props FglmSpec FglmModel MatVecProofs BuildModel StairProofs BuildProofs BasisProofs LinTabProofs.
Import ListNotations.
Open Scope nat_scope.

(** What the F4 computation returns for the degree reverse lexicographic order is such a basis. *)
Lemma f4_reduced_gb c fuel F out : cfg_ok c -> o_nev (c_o c) = 0 -> o_mo (c_o c) <> 1 ->
  Forall (sorted_poly (o_nv (c_o c)) (o_lt (c_o c)) (c_p c)) F -> core_f4 c true fuel F = Ok out ->
  same_ideal (o_nv (c_o c)) (c_p c) (pfs F) (pfs out) /\ reduced_gb (o_nv (c_o c)) (c_p c) out.
Proof.
  intros CK E0 E1 HF E. destruct (C23_sound c true fuel F out CK HF E) as (A & B & _ & C & DD). destruct (DD eq_refl) as [R S]. assert (EO : o_lt (c_o c) = drl_lt). { unfold o_lt, sel. rewrite E0. cbn [Nat.ltb Nat.leb]. destruct (Nat.eqb_spec (o_mo (c_o c)) 1); [contradiction|reflexivity]. }
  rewrite EO in *. split; [exact A|]. split; [exact B|]. split; [exact R|]. split; [exact C|]. exact S.
Qed.

(** * C55 *)
(** The variables leading in an element of degree one are flagged, and the table has for each of them, in increasing order, the
    coefficients of an element of the ideal x_k + ... of degree one, whatever the number of terms of the elements. *)
Theorem C55_table : forall nv p G, 1 <= nv -> (2 <= p)%Z -> reduced_gb nv p G ->
  exists lin lv eqs, (forall k, k < nv -> lin k = true <-> exists f, In f G /\ lead f = xpow nv k 1) /\
    check_and_set_linear_poly nv (leads G) G = Some (length (filter lin (seq 0 nv)), lv, eqs) /\
    length lv = nv /\ (forall k, k < nv -> nth k lv 0 = 0 <-> lin k = false) /\
    Forall2 (linear_row nv p (pfs G)) (filter lin (seq 0 nv)) eqs.
Proof.
  intros nv p G NV P2 HG. destruct (table_ok nv p G NV P2 HG) as (lv & eqs & E & L & Z0 & R). exists (lead_var nv (leads G)), lv, eqs. split; [|split; [exact E|split; [exact L|split; [|exact R]]]].
  - intros k Hk. rewrite lead_var_iff. unfold leads. rewrite in_map_iff. split; intros (f & A & B); exists f; auto.
  - intros k Hk. specialize (Z0 k Hk). destruct (lead_var nv (leads G) k); cbn [negb] in Z0; split; intros H; try reflexivity; try discriminate; [rewrite H in Z0; discriminate|]. apply Nat.eqb_eq. exact Z0.
Qed.
Print Assumptions C55_table.
(** Reducedness is needed: an element with all its nv + 1 terms does not advance the row counter, and the next linear form is
    written over it. Here x0 + x1 + 1 and x1 + 2 share the first row, the second stays zero. *)
Definition unreduced : list bpoly := [[(1, [0; 1]%N); (2, [0; 0]%N)]; [(1, [1; 0]%N); (1, [0; 1]%N); (1, [0; 0]%N)]]%Z.
Theorem C55_unreduced_refuted : check_and_set_linear_poly 2 (leads unreduced) unreduced = Some (2, [2; 1], [[1; 1; 2]; [0; 0; 0]]%Z).
Proof. vm_compute. reflexivity. Qed.
Print Assumptions C55_unreduced_refuted.

(** * C59 *)
Definition inb (m : mono) (l : list mono) : bool := if in_dec mono_dec m l then true else false.
(** the standard monomials whose product by the last variable is not standard; those for which it is not a leading monomial of the
    basis either *)
Definition border (nv : nat) (lmb : list mono) : list mono := filter (fun m => negb (inb (mmul (xpow nv (nv - 1) 1) m) lmb)) lmb.
Definition strict_border (nv : nat) (G : list (list (Z * mono))) (lmb : list mono) : list mono :=
  filter (fun m => negb (inb (mmul (xpow nv (nv - 1) 1) m) (leads G))) (border nv lmb).

Lemma map_filter_nth (f : mono -> bool) (g : nat -> bool) (l : list mono) : (forall i, i < length l -> g i = f (nth i l [])) -> length (filter g (seq 0 (length l))) = length (filter f l).
Proof.
  intros H. assert (K : forall l (g : nat -> bool) a, (forall i, i < length l -> g (a + i) = f (nth i l [])) -> length (filter g (seq a (length l))) = length (filter f l)).
  { clear. induction l as [|x l IH]; intros g a H; [reflexivity|]. cbn [length seq filter]. pose proof (H 0 ltac:(cbn [length]; lia)) as H0. rewrite Nat.add_0_r in H0. cbn [nth] in H0. rewrite H0. assert (IH' : length (filter g (seq (S a) (length l))) = length (filter f l)); [apply IH|destruct (f x); cbn [length]; rewrite IH'; reflexivity]. intros i Hi. replace (S a + i) with (a + S i) by lia. apply (H (S i)). cbn [length]. lia. }
  apply K. intros i Hi. apply H. exact Hi.
Qed.
Lemma filter_nth (f : mono -> bool) (g : nat -> bool) (l : list mono) : (forall i, i < length l -> g i = f (nth i l [])) -> map (fun i => nth i l []) (filter g (seq 0 (length l))) = filter f l.
Proof.
  intros H. assert (K : forall (l1 l2 : list mono) (g : nat -> bool), (forall i, i < length l2 -> g (length l1 + i) = f (nth i l2 [])) -> map (fun i => nth i (l1 ++ l2) []) (filter g (seq (length l1) (length l2))) = filter f l2).
  { clear. intros l1 l2. revert l1. induction l2 as [|x l IH]; intros l1 g H; [reflexivity|]. cbn [length seq filter]. pose proof (H 0 ltac:(cbn [length]; lia)) as H0. rewrite Nat.add_0_r in H0. cbn [nth] in H0. rewrite H0.
    assert (IH' : map (fun i => nth i (l1 ++ x :: l) []) (filter g (seq (S (length l1)) (length l))) = filter f l).
    { specialize (IH (l1 ++ [x]) g). rewrite app_length, Nat.add_1_r, <- app_assoc in IH. apply IH. intros i Hi. replace (S (length l1) + i) with (length l1 + S i) by lia. apply (H (S i)). cbn [length]. lia. }
    destruct (f x); cbn [map]; rewrite IH'; [|reflexivity]. rewrite app_nth2, Nat.sub_diag by lia. reflexivity. }
  apply (K [] l). intros i Hi. apply H. exact Hi.
Qed.
Lemma inb_iff m l : inb m l = true <-> In m l.
Proof. unfold inb. destruct (in_dec mono_dec m l); split; intros; try assumption; try reflexivity; try discriminate; contradiction. Qed.
Lemma bool_iff (a b : bool) : (a = true <-> b = true) -> a = b.
Proof. destruct a, b; intros [H K]; try reflexivity; [discriminate H|discriminate K]; reflexivity. Qed.
Lemma filter_filter {A} (f g : A -> bool) l : filter f (filter g l) = filter (fun x => g x && f x) l.
Proof. induction l as [|x l IH]; [reflexivity|]. cbn [filter]. destruct (g x); cbn [filter andb]; [destruct (f x); rewrite IH; reflexivity|exact IH]. Qed.

Lemma len1 (l : list mono) : l <> [] -> 1 <= length l.
Proof. destruct l; [intros N; destruct N; reflexivity|]. cbn [length]. lia. Qed.
Section Sizes.
Variables (nv : nat) (p : Z) (G : list bpoly) (lmb : list mono).
Hypothesis NV : 1 <= nv.
Hypothesis P2 : (2 <= p)%Z.
Hypothesis HG : reduced_gb nv p G.
Hypothesis BS : StronglySorted drl_lt lmb.
Hypothesis BI : forall m, In m lmb <-> standard nv (leads G) m.
Hypothesis D1 : lmb <> [].
Lemma border_len : length (filter (nmem nv lmb) (seq 0 (length lmb))) = length (border nv lmb).
Proof.
  apply map_filter_nth. intros i Hi. unfold nmem. f_equal. apply bool_iff. rewrite inb_iff. apply (mem_iff nv NV (leads G) lmb BS BI i Hi).
Qed.
Lemma strict_len : length (filter (isx nv (leads G) lmb) (seq 0 (length lmb))) = length (strict_border nv G lmb).
Proof.
  unfold strict_border, border. rewrite filter_filter. apply map_filter_nth. intros i Hi. unfold isx. f_equal; f_equal; apply bool_iff; rewrite inb_iff; [apply (mem_iff nv NV (leads G) lmb BS BI i Hi)|apply isl_iff].
Qed.
Lemma strict_eq : map (fun i => mmul (xpow nv (nv - 1) 1) (nth i lmb [])) (filter (isx nv (leads G) lmb) (seq 0 (length lmb))) = map (mmul (xpow nv (nv - 1) 1)) (strict_border nv G lmb).
Proof.
  rewrite <- (map_map (fun i => nth i lmb []) (mmul (xpow nv (nv - 1) 1))). f_equal. unfold strict_border, border. rewrite filter_filter. apply filter_nth. intros i Hi. unfold isx. f_equal; f_equal; apply bool_iff; rewrite inb_iff; [apply (mem_iff nv NV (leads G) lmb BS BI i Hi)|apply isl_iff].
Qed.
Lemma lead_len : length (div_list nv (leads G)) = length (border nv lmb) - length (strict_border nv G lmb).
Proof.
  pose proof (nmem_total nv (leads G) lmb G NV (leads_len nv p G P2 HG) (leads_minimal nv p G P2 HG) (leads_sorted nv p G HG) BS BI (len1 lmb D1)) as T. rewrite border_len, strict_len in T. lia.
Qed.
End Sizes.

(** The matrix built for the basis is the matrix of the multiplication by the last variable on the standard monomials; none is built
    (NULL) exactly when there are more extra normal forms to compute than the option allows. The routine never fails otherwise (no
    access outside an array, no inconsistent staircase), except when the normal forms that are needed cannot be computed. *)
Theorem C59_matrix : forall nv p G lmb nf unstable, 1 <= nv -> (2 <= p)%Z -> reduced_gb nv p G ->
  StronglySorted drl_lt lmb -> (forall m, In m lmb <-> standard nv (leads G) m) -> lmb <> [] ->
  nf_contract nv p (pfs G) (leads G) nf -> (Z.of_nat (length (concat G)) <= 2147483647)%Z ->
  (Z.of_nat (length lmb) < 2 ^ 32)%Z -> (Z.of_nat (length (border nv lmb)) * Z.of_nat (length lmb) <= 2 ^ 32)%Z ->
  let extras := length (strict_border nv G lmb) in
  let allowed := threshold unstable (length lmb - (length (border nv lmb) - extras)) in
  (allowed < extras /\ build_matrixn nv p unstable nf lmb (leads G) G = Some None) \/
  (extras <= allowed /\ strict_border nv G lmb <> [] /\ nf (map (mmul (xpow nv (nv - 1) 1)) (strict_border nv G lmb)) = None /\ build_matrixn nv p unstable nf lmb (leads G) G = None) \/
  (extras <= allowed /\ exists m M, build_matrixn nv p unstable nf lmb (leads G) G = Some (Some m) /\ m_ncols m = length lmb /\
     represents p m M /\ mult_matrix nv p (pfs G) (length lmb) (fun i => cf [(1%Z, nth i lmb [])]) M).
Proof.
  intros nv p G lmb nf unstable NV P2 HG BS BI D1 NF SZ S1 S2 extras allowed. pose proof (len1 lmb D1) as L1. pose proof (border_len nv G lmb NV BS BI) as BL.
  assert (SK : size_ok nv (leads G) lmb) by (split; [exact S1|rewrite BL; exact S2]).
  pose proof (build_ok nv p (leads G) lmb G nf unstable NV P2 (leads_len nv p G P2 HG) (leads_minimal nv p G P2 HG) (leads_sorted nv p G HG) BS BI L1 (el_at nv p G P2 HG) SZ NF SK) as K.
  rewrite (strict_len nv G lmb NV BS BI), (lead_len nv p G lmb NV P2 HG BS BI D1) in K. fold extras allowed in K. destruct (Nat.ltb_spec allowed extras) as [C|C]; [left; split; [exact C|exact K]|right]. rewrite (strict_eq nv G lmb NV BS BI) in K. cbv zeta in K. destruct K as [(Q1 & Q2 & Q3)|K]; [left; split; [exact C|]; split; [intros E0; apply Q1; rewrite E0; reflexivity|]; split; [exact Q2|exact Q3]|right]. split; [exact C|]. destruct K as (m & M & A & B & R & T). exists m, M. split; [exact A|]. split; [exact B|]. split; [exact R|exact T].
Qed.
Print Assumptions C59_matrix.

(** The standard monomials are a basis of the quotient: independent, and every monomial is a combination of them modulo the ideal. *)
Theorem C59_basis : forall nv p G lmb, (2 <= p)%Z -> reduced_gb nv p G ->
  StronglySorted drl_lt lmb -> (forall m, In m lmb <-> standard nv (leads G) m) ->
  independent nv p (pfs G) (length lmb) (fun i => cf [(1%Z, nth i lmb [])]) /\
  forall m, length m = nv -> exists c, ideal nv p (pfs G) (fun u => (cf [(1, m)] u - sumn (length lmb) (fun j => c j * cf [(1, nth j lmb [])] u))%Z).
Proof.
  intros nv p G lmb P2 HG BS BI. split; [apply std_indep; assumption|]. intros m Hm. destruct (std_span nv p G P2 HG m Hm) as (h & Hs & Ih). exists (fun j => cf h (nth j lmb [])). eapply lspan_ext; [exact Ih|]. intros u Hu. cbv beta. f_equal.
  destruct (in_dec mono_dec u lmb) as [I0|N0].
  - destruct (in_nth_m _ _ I0) as (q & Hq & Eq). rewrite (sumn_ext (length lmb) _ (fun j => if j =? q then cf h (nth j lmb []) else 0%Z)); [rewrite (sumn_delta (length lmb) q (fun j => cf h (nth j lmb [])) Hq), Eq; reflexivity|].
    intros i Hi. cbn [cf fst snd]. destruct (Nat.eqb_spec i q) as [->|N]; [destruct (mono_dec (nth q lmb []) u); [ring|contradiction]|]. destruct (mono_dec (nth i lmb []) u) as [C|_]; [|ring]. exfalso. apply (drl_irrefl u). destruct (Nat.lt_total i q) as [L|[L|L]]; [|lia|]; pose proof (sorted_nth lmb [] _ _ BS L ltac:(assumption)) as K; rewrite C, Eq in K; exact K.
  - rewrite sumn_zero_ext; [|intros i Hi; cbn [cf fst snd]; destruct (mono_dec (nth i lmb []) u) as [C|_]; [destruct N0; rewrite <- C; apply nth_In; exact Hi|ring]]. symmetry. apply cf_notin. intros C. apply in_map_iff in C as (t & <- & Ht). apply N0. apply BI. apply Hs. exact Ht.
Qed.
Print Assumptions C59_basis.

(** * Cases *)
(** the ideal of x0 + x1 + 1 and x1^2 - 2 modulo 101: the linear form has all its terms *)
Definition bl_in : list (list (Z * mono)) := [[(3, [1; 0]%N); (3, [0; 1]%N); (3, [0; 0]%N)]; [(1, [1; 1]%N); (1, [0; 1]%N); (2, [0; 0]%N)]]%Z.
Definition bl_gb : list (list (Z * mono)) := [[(1, [1; 0]%N); (1, [0; 1]%N); (1, [0; 0]%N)]; [(1, [0; 2]%N); (99, [0; 0]%N)]]%Z.
(** the ideal of x0^2 - 3 and x1^2 - 2: the product of x0 x1 by x1 is neither standard nor leading *)
Definition bx_in : list (list (Z * mono)) := [[(1, [2; 0]%N); (1, [0; 2]%N); (96, [0; 0]%N)]; [(1, [0; 2]%N); (99, [0; 0]%N)]]%Z.
Definition bx_gb : list (list (Z * mono)) := [[(1, [0; 2]%N); (99, [0; 0]%N)]; [(1, [2; 0]%N); (98, [0; 0]%N)]]%Z.
Lemma bl_run : core_f4 cfg1 true 20 bl_in = Ok bl_gb /\ core_f4 cfg1 true 20 bx_in = Ok bx_gb.
Proof. split; vm_compute; reflexivity. Qed.
Lemma b_sorted : Forall (sorted_poly 2 (o_lt ord2) 101) bl_in /\ Forall (sorted_poly 2 (o_lt ord2) 101) bx_in.
Proof. split; (constructor; [|constructor; [|constructor]]); (apply (sortedb_ok ord2); [apply ord2_ok|discriminate|vm_compute; reflexivity]). Qed.
Example bl_reduced : reduced_gb 2 101 bl_gb.
Proof. apply (f4_reduced_gb cfg1 20 bl_in bl_gb cfg1_ok); [reflexivity|discriminate|apply b_sorted|apply bl_run]. Qed.
Example bx_reduced : reduced_gb 2 101 bx_gb.
Proof. apply (f4_reduced_gb cfg1 20 bx_in bx_gb cfg1_ok); [reflexivity|discriminate|apply b_sorted|apply bl_run]. Qed.
Example C55_ex : check_and_set_linear_poly 2 (leads bl_gb) bl_gb = Some (1, [1; 0], [[1; 1; 1]]%Z).
Proof. vm_compute. reflexivity. Qed.
(** normal forms modulo the second ideal *)
Definition bx_c (a b : N) : Z := ((3 ^ Z.of_N (a / 2) * 2 ^ Z.of_N (b / 2)) mod 101)%Z.
Definition bx_nf1 (m : mono) : bpoly := match m with [a; b] => [(bx_c a b, [a mod 2; b mod 2]%N)] | _ => [] end.
Definition bx_nf (ms : list mono) : option (list bpoly) := Some (map bx_nf1 ms).
Lemma bx_std m : standard 2 (leads bx_gb) m <-> exists a b, m = [a; b] /\ (a <= 1 /\ b <= 1)%N.
Proof.
  split.
  - intros [L H]. destruct m as [|a [|b [|? ?]]]; try discriminate L. exists a, b. split; [reflexivity|].
    assert (H1 : ~ (2 <= a)%N) by (intros C; apply (H [2; 0]%N); [right; left; reflexivity|]; intros [|[|[|i]]]; cbn; lia).
    assert (H2 : ~ (2 <= b)%N) by (intros C; apply (H [0; 2]%N); [left; reflexivity|]; intros [|[|[|i]]]; cbn; lia). lia.
  - intros (a & b & -> & Ha & Hb). split; [reflexivity|]. intros l [<-|[<-|[]]] Hd; [specialize (Hd 1)|specialize (Hd 0)]; cbn in Hd; lia.
Qed.
Lemma half b : (2 <= b)%N -> (b / 2 = (b - 2) / 2 + 1 /\ b mod 2 = (b - 2) mod 2)%N.
Proof. intros H. remember (b - 2)%N as c eqn:Ec. assert (E : b = (c + 1 * 2)%N) by lia. clear Ec H. subst b. rewrite N.div_add, N.mod_add by lia. auto. Qed.
Lemma bx_c0 a b : (2 <= a)%N -> eqp 101 (bx_c a b) (3 * bx_c (a - 2) b).
Proof. intros H. destruct (half a H) as [E _]. unfold bx_c. rewrite E, N2Z.inj_add, Z.pow_add_r by apply N2Z.is_nonneg. unfold eqp. apply Zmod_divide; [lia|]. rewrite Zminus_mod, Zmult_mod_idemp_r, Zmod_mod. rewrite <- Zminus_mod. match goal with |- (?x mod _)%Z = _ => replace x with 0%Z by (cbn [Z.of_N]; rewrite Z.pow_1_r; ring) end. reflexivity. Qed.
Lemma bx_c1 a b : (2 <= b)%N -> eqp 101 (bx_c a b) (2 * bx_c a (b - 2)).
Proof. intros H. destruct (half b H) as [E _]. unfold bx_c. rewrite E, N2Z.inj_add, Z.pow_add_r by apply N2Z.is_nonneg. unfold eqp. apply Zmod_divide; [lia|]. rewrite Zminus_mod, Zmult_mod_idemp_r, Zmod_mod. rewrite <- Zminus_mod. match goal with |- (?x mod _)%Z = _ => replace x with 0%Z by (cbn [Z.of_N]; rewrite Z.pow_1_r; ring) end. reflexivity. Qed.
Lemma bx_cpos a b : (0 < bx_c a b < 101)%Z.
Proof.
  unfold bx_c. pose proof (Z.mod_pos_bound (3 ^ Z.of_N (a / 2) * 2 ^ Z.of_N (b / 2)) 101 eq_refl) as B. destruct (Z.eq_dec ((3 ^ Z.of_N (a / 2) * 2 ^ Z.of_N (b / 2)) mod 101) 0) as [E|]; [|lia]. exfalso. apply Z.mod_divide in E; [|lia]. apply prime_mult in E; [|exact prime_101].
  destruct E as [E|E]; [pose proof (prime_power_prime 101 3 (Z.of_N (a / 2)) (N2Z.is_nonneg _) prime_101 prime_3 E)|pose proof (prime_power_prime 101 2 (Z.of_N (b / 2)) (N2Z.is_nonneg _) prime_101 prime_2 E)]; discriminate.
Qed.
Lemma bx_ideal n : forall a b, (a + b < N.of_nat n)%N -> ideal 2 101 (pfs bx_gb) (fun u => (cf [(1, [a; b])] u - cf (bx_nf1 [a; b]) u)%Z).
Proof.
  induction n as [|n IH]; intros a b Hn; [lia|]. destruct (N.lt_ge_cases a 2) as [Ha|Ha]; [destruct (N.lt_ge_cases b 2) as [Hb|Hb]|].
  - apply lspan_zero. intros u _. unfold bx_nf1, bx_c. rewrite !N.div_small, !N.mod_small by assumption. change ((3 ^ Z.of_N 0 * 2 ^ Z.of_N 0) mod 101)%Z with 1%Z. rewrite Z.sub_diag. reflexivity.
  - eapply ls_eq; [apply lspan_add; [apply (lspan_scale _ _ _ 2 _ (IH a (b - 2)%N ltac:(lia)))|]|].
    + apply (ideal_mul 2 101 (pfs bx_gb) [a; (b - 2)%N] (cf [(1, [0; 2]%N); (99, [0; 0]%N)]%Z) eq_refl). apply ideal_gen. eexists. split; [left; reflexivity|reflexivity].
    + intros u Hu. cbv beta. rewrite <- (cf_shift 2 [a; (b - 2)%N] _ u eq_refl); [|intros t [<-|[<-|[]]]; reflexivity|exact Hu]. unfold shift, mmul. cbn [map fst snd map2]. replace (a + 0)%N with a by lia. replace (b - 2 + 2)%N with b by lia. replace (b - 2 + 0)%N with (b - 2)%N by lia.
      unfold bx_nf1. cbn [cf fst snd]. destruct (bx_c1 a b Hb) as [q Hq]. rewrite (proj2 (half b Hb)). destruct (mono_dec [a; b] u), (mono_dec [a; (b - 2)%N] u), (mono_dec [(a mod 2)%N; ((b - 2) mod 2)%N] u); first [exists (1 + q)%Z; lia|exists 1%Z; lia|exists q; lia|exists 0%Z; lia].
  - eapply ls_eq; [apply lspan_add; [apply (lspan_scale _ _ _ 3 _ (IH (a - 2)%N b ltac:(lia)))|]|].
    + apply (ideal_mul 2 101 (pfs bx_gb) [(a - 2)%N; b] (cf [(1, [2; 0]%N); (98, [0; 0]%N)]%Z) eq_refl). apply ideal_gen. eexists. split; [right; left; reflexivity|reflexivity].
    + intros u Hu. cbv beta. rewrite <- (cf_shift 2 [(a - 2)%N; b] _ u eq_refl); [|intros t [<-|[<-|[]]]; reflexivity|exact Hu]. unfold shift, mmul. cbn [map fst snd map2]. replace (b + 0)%N with b by lia. replace (a - 2 + 2)%N with a by lia. replace (a - 2 + 0)%N with (a - 2)%N by lia.
      unfold bx_nf1. cbn [cf fst snd]. destruct (bx_c0 a b Ha) as [q Hq]. rewrite (proj2 (half a Ha)). destruct (mono_dec [a; b] u), (mono_dec [(a - 2)%N; b] u), (mono_dec [((a - 2) mod 2)%N; (b mod 2)%N] u); first [exists (1 + q)%Z; lia|exists 1%Z; lia|exists q; lia|exists 0%Z; lia].
Qed.
Lemma bx_contract : nf_contract 2 101 (pfs bx_gb) (leads bx_gb) bx_nf.
Proof.
  intros ms hs H E. injection E as <-. induction H as [|m ms Hm _ IH]; [constructor|]. constructor; [|exact IH]. destruct m as [|a [|b [|? ?]]]; try discriminate Hm.
  split; [|split].
  - intros t [<-|[]]. split; [apply bx_cpos|]. apply bx_std. eexists _, _. split; [reflexivity|]. pose proof (N.mod_lt a 2 ltac:(lia)). pose proof (N.mod_lt b 2 ltac:(lia)). lia.
  - cbn. repeat constructor.
  - apply (bx_ideal (S (N.to_nat (a + b)))). lia.
Qed.
(** with at most one extra normal form allowed the matrix is built, rows 1 and 3 (for x1 and x0 x1) stored; with none, it is refused *)
Definition bx_lmb : list mono := [[0; 0]; [0; 1]; [1; 0]; [1; 1]]%N.
Example C59_ex : StronglySorted drl_lt bx_lmb /\ (forall m, In m bx_lmb <-> standard 2 (leads bx_gb) m) /\ length (border 2 bx_lmb) = 2 /\ length (strict_border 2 bx_gb bx_lmb) = 1 /\
  build_matrixn 2 101 2 bx_nf bx_lmb (leads bx_gb) bx_gb = Some (Some {| m_ncols := 4; m_nrows := 2; m_dense := [2; 0; 0; 0; 0; 0; 2; 0]%Z;
    m_triv_idx := [0; 2]; m_triv_pos := [1; 3]; m_dense_idx := [1; 3]; m_dst := [3; 1] |}) /\
  build_matrixn 2 101 0 bx_nf bx_lmb (leads bx_gb) bx_gb = Some None.
Proof.
  split; [|split; [|repeat split; vm_compute; reflexivity]].
  - unfold bx_lmb. repeat (apply SSorted_cons; [|repeat (apply Forall_cons; [|]); try apply Forall_nil]); try apply SSorted_nil; try (left; reflexivity). right. split; [reflexivity|]. exists 1. split; [reflexivity|]. intros [|[|k]] Hk; try lia. destruct k; reflexivity.
  - intros m. rewrite bx_std. split.
    + intros [<-|[<-|[<-|[<-|[]]]]]; eexists _, _; (split; [reflexivity|lia]).
    + intros (a & b & -> & Ha & Hb). assert (A : a = 0%N \/ a = 1%N) by lia. assert (B : b = 0%N \/ b = 1%N) by lia. destruct A as [->| ->], B as [->| ->]; cbn; auto.
Qed.
