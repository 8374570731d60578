(** Cases for C78: a run with a restart for which all hypotheses hold; a wrong answer when the prime is not larger than the number of variables. *)
From Coq Require Import ZArith NArith Arith String List Bool Lia Sorted Permutation Znumtheory Ring_theory Ring.
From Verif Require Import ModInvModel LinSpec MonoSpec MonoModel MonoProofs MonoCmpProofs HilbSpec HilbModel GbSpec F4Model RoundProofs F4Props PointSpec LaModel LaProps FglmModel BuildModel StepModel StepProofs StepProps ElimProps.
From Verif Require Import InputSpec InputModel InputProofs ImportModel ImportProps NsModel NsEx NsStep DrvModel DrvProofs DrvProps.
Import ListNotations.
Open Scope Z_scope.
Notation length := List.length.

Definition drv_o (n : nat) : ordering := {| o_nv := n; o_nev := 0; o_mo := 0 |}.
(** a sorting routine that calls the comparator *)
Definition pos_le (o : ordering) (l : list mono) (a b : nat) : bool :=
  match initial_gens_cmp o (lay (o_nev o) (nth a l [])) (lay (o_nev o) (nth b l [])) with Some c => c <=? 0 | None => true end.
Fixpoint pos_ins (o : ordering) (l : list mono) (a : nat) (r : list nat) : list nat :=
  match r with [] => [a] | b :: r' => if pos_le o l a b then a :: r else b :: pos_ins o l a r' end.
Definition drv_sort (n : nat) (l : list mono) : list nat := fold_right (pos_ins (drv_o n) l) [] (seq 0 (length l)).
Definition drv_env (p : Z) (i : nat) : env2 := {| e2_k := Scalar; e2_sqf := ns_sqf p; e2_sqpart := ns_sqpart p; e2_xg := ns_xg p; e2_al := fun n => S (S n); e2_lam := fun _ => 1; e2_unstable := 2;
  e2_v := fun D => map (fun i => Z.of_nat (5 + i * i) mod p) (seq 0 D); e2_old := fun D => repeat 0 D |}.
Definition drv_cf (p : Z) (n : nat) := std_config (drv_o n) K31 p 1.

Lemma ins_perm o l a : forall r, Permutation (pos_ins o l a r) (a :: r).
Proof. induction r as [|b r IH]; cbn; [reflexivity|]. destruct (pos_le o l a b); [reflexivity|]. rewrite IH. apply perm_swap. Qed.
Section Sort.
Variables (n : nat) (l : list mono).
Hypothesis Hn : (1 <= n)%nat.
Hypothesis Hl : Forall (fun m => length m = n) l.
Let o := drv_o n.
Let le (a b : nat) := gens_le o (nth a l []) (nth b l []).
Let len a : (a < length l)%nat -> length (nth a l []) = n.
Proof. intros H. rewrite Forall_forall in Hl. apply Hl. apply nth_In. exact H. Qed.
Lemma pos_cmp a b : length a = n -> length b = n -> exists c, initial_gens_cmp o (lay (o_nev o) a) (lay (o_nev o) b) = Some (- c) /\ cmp_spec (o_lt o) a b c.
Proof.
  intros La Lb. assert (OK : o_ok o) by (unfold o_ok; cbn; lia). destruct (variants_ok o a b OK La Lb) as (c & H1 & _ & _ & H4). destruct (monomial_cmp_ev_ok o a b OK La Lb) as (c' & H1' & SP). rewrite H1 in H1'. injection H1' as <-. exists c. split; [exact H4|exact SP].
Qed.
Lemma le_iff a b : length a = n -> length b = n -> (gens_le o a b <-> a = b \/ o_lt o b a).
Proof.
  intros La Lb. destruct (pos_cmp a b La Lb) as (c & E & S1 & S2 & S3). unfold gens_le. rewrite E. split.
  - intros (c1 & E1 & Hc). injection E1 as <-. destruct (Z.eq_dec c 0) as [Z0|Z0]; [left; now apply S2|right; apply S3; lia].
  - intros H. exists (- c). split; [reflexivity|]. destruct H as [H|H]; [apply S2 in H; lia|apply S3 in H; lia].
Qed.
Lemma le_trans a b c : (a < length l)%nat -> (b < length l)%nat -> (c < length l)%nat -> le a b -> le b c -> le a c.
Proof.
  intros A B C. unfold le. rewrite !le_iff by auto. intros [->|H1] [E|H2]; auto; [rewrite <- E; auto|]. right. apply (mo_trans (o_nv o) _ (o_lt_order o) _ (nth b l [])); try (apply len; assumption); assumption.
Qed.
Lemma pos_le_ok a b : (a < length l)%nat -> (b < length l)%nat -> if pos_le o l a b then le a b else le b a.
Proof.
  intros A B. destruct (pos_cmp (nth a l []) (nth b l []) (len a A) (len b B)) as (c & E & S1 & S2 & S3). unfold pos_le. rewrite E. destruct (Z.leb_spec (- c) 0) as [H|H].
  - exists (- c). split; [exact E|lia].
  - apply le_iff; [apply len; exact B|apply len; exact A|]. right. apply S1. lia.
Qed.
Lemma ins_sorted a : (a < length l)%nat -> forall r, Forall (fun b => (b < length l)%nat) r -> StronglySorted le r -> StronglySorted le (pos_ins o l a r).
Proof.
  intros A. induction r as [|b r IH]; intros HB HS; cbn; [constructor; constructor|]. destruct (proj1 (Forall_cons_iff _ _ _) HB) as [B HB']. destruct (StronglySorted_inv HS) as [HS' HF]. pose proof (pos_le_ok a b A B) as P. destruct (pos_le o l a b).
  - constructor; [exact HS|]. constructor; [exact P|]. rewrite Forall_forall in HB', HF |- *. intros c Hc. apply (le_trans a b c A B (HB' c Hc) P (HF c Hc)).
  - constructor; [apply IH; assumption|]. apply (Permutation_Forall (Permutation_sym (ins_perm o l a r))). constructor; assumption.
Qed.
Lemma drv_sort_perm s : Permutation (fold_right (pos_ins o l) [] s) s.
Proof. induction s as [|a s IH]; cbn; [reflexivity|]. rewrite ins_perm, IH. reflexivity. Qed.
Lemma drv_sort_ok : sorts (gens_le o) (drv_sort n) l.
Proof.
  split; [apply drv_sort_perm|]. intros d. unfold drv_sort. assert (H : forall s, Forall (fun b => (b < length l)%nat) s -> StronglySorted le (fold_right (pos_ins o l) [] s)).
  { induction s as [|a s IH]; intros H; cbn; [constructor|]. destruct (proj1 (Forall_cons_iff _ _ _) H) as [H1 H2]. apply ins_sorted; [assumption| |apply IH; assumption]. apply (Permutation_Forall (Permutation_sym (drv_sort_perm s))). assumption. }
  assert (B : Forall (fun b => (b < length l)%nat) (seq 0 (length l))) by (apply Forall_forall; intros b Hb; apply in_seq in Hb; lia). specialize (H _ B). pose proof (Permutation_Forall (Permutation_sym (drv_sort_perm (seq 0 (length l)))) B) as B'.
  fold o. clear B. induction H as [|a r H IH HF]; cbn; [constructor|]. destruct (proj1 (Forall_cons_iff _ _ _) B') as [A B]. constructor; [apply IH; exact B|]. rewrite Forall_map. rewrite Forall_forall in B, HF |- *. intros b Hb. specialize (HF b Hb). unfold le in HF.
  rewrite (nth_indep l d []), (nth_indep l d []) by (try exact A; apply B; exact Hb). exact HF.
Qed.
End Sort.
Lemma drv_all p env : prime p -> 2 < p < 2 ^ 31 -> (forall i, env2_ok p (env i)) -> drv_ok p (drv_cf p) env drv_sort.
Proof.
  intros PR P HE. constructor; [exact P| |exact HE|].
  - intros n Hn. split; [|cbn; auto]. apply std_config_ok; [unfold o_ok; cbn; lia|exact PR|unfold in_class; lia|lia].
  - intros n l Hn Hl. exact (drv_sort_ok n l Hn Hl).
Qed.
Lemma drv_env_ok p i : prime p -> 2 < p -> env2_ok p (drv_env p i).
Proof.
  intros PR P. split; [apply ns_sqf_ok; exact PR|]. split; [apply ns_sqpart_ok; exact PR|]. split; [apply ns_xg_ok; exact PR|]. split; [intros k; cbn; lia|]. split; [intros n; cbn; lia|]. intros D. cbn [drv_env e2_v e2_old].
  split; [rewrite map_length, seq_length; reflexivity|]. split; [|apply repeat_length]. intros x Hx. apply in_map_iff in Hx as (j & <- & _). apply Z.mod_pos_bound. lia.
Qed.

(** x^2 - 1, y^2 - 1 modulo 7: the first attempt fails, the second adds the linear form x + 2 y + A drawn at random, the answer has degree 4. *)
Definition drv_s2 : isys := [[((1, 1), [2; 0]); ((-1, 1), [0; 0])]; [((1, 1), [0; 2]); ((-1, 1), [0; 0])]].
Definition drv_g2 : gens := mkG 2 ["x"%string; "y"%string] [2; 2]%nat [2; 0; 0; 0; 0; 2; 0; 0] [(1, 1); (-1, 1); (1, 1); (-1, 1)] 7 (-1) 0 false [].
Definition drv_g2' : gens := mkG 3 ["x"%string; "y"%string; "A"%string] [2; 2; 3]%nat [2; 0; 0; 0; 0; 0; 0; 2; 0; 0; 0; 0; 1; 0; 0; 0; 1; 0; 0; 0; 1]
  [(1, 1); (-1, 1); (1, 1); (-1, 1); (1, 1); (2, 1); (1, 1)] 7 (-1) 1 true [1; 2; 1].
Definition drv_F2 : list poly := [[(1, [2; 0; 0]%N); (6, [0; 0; 0]%N)]; [(1, [0; 2; 0]%N); (6, [0; 0; 0]%N)]; [(1, [1; 0; 0]%N); (2, [0; 1; 0]%N); (1, [0; 0; 1]%N)]].
Definition drv_G2 : list poly := [[(1, [1; 0; 0]%N); (2, [0; 1; 0]%N); (1, [0; 0; 1]%N)]; [(1, [0; 1; 1]%N); (2, [0; 0; 2]%N); (6, [0; 0; 0]%N)]; [(1, [0; 2; 0]%N); (6, [0; 0; 0]%N)]; [(1, [0; 0; 3]%N); (2, [0; 1; 0]%N); (1, [0; 0; 1]%N)]].
Ltac sys_case p := split; [discriminate|]; repeat (constructor; [split; [discriminate|]; split; [repeat (constructor; [split; [cbn; split; [lia|]; split; [lia|]; intros (q & ?); lia|split; [reflexivity|repeat (constructor; [lia|]); constructor]]|]); constructor|cbn [map snd]; repeat (constructor; [cbn [In]; intuition discriminate|]); constructor]|]); constructor.
Lemma drv_input2 : drv_input 7 drv_g2 ["x"%string; "y"%string] drv_s2.
Proof.
  constructor; [exact prime_7|reflexivity|cbn; lia|cbn; lia|repeat split| |sys_case 7].
  repeat split. intros f [<-|[<-|[]]] t Ht; cbn [In] in Ht; intuition (subst; reflexivity).
Qed.
Lemma drv_ok2 : drv_ok 7 (drv_cf 7) (drv_env 7) drv_sort.
Proof. apply drv_all; [exact prime_7|lia|]. intros i. apply drv_env_ok; [exact prime_7|lia]. Qed.
Lemma drv_small2 : small_last (drv_cf 7) drv_sort drv_g2'.
Proof.
  intros F fuel G EF EG. assert (F = drv_F2). { assert (Q : engine_input drv_sort drv_g2' = Some (1, drv_F2)) by (vm_compute; reflexivity). rewrite Q in EF. congruence. } subst F. change (nvars drv_g2') with 3%nat in *.
  assert (CK : cfg_ok (drv_cf 7 3)) by (apply (do_cfg _ _ _ _ drv_ok2); lia).
  assert (SO : Forall (sorted_poly 3 (o_lt (c_o (drv_cf 7 3))) 7) drv_F2) by (repeat (constructor; [apply (sortedb_ok (drv_o 3)); [unfold o_ok; cbn; lia|discriminate|vm_compute; reflexivity]|]); constructor).
  assert (G = drv_G2). { apply (C23_unique (drv_cf 7 3) (drv_cf 7 3) fuel 30%nat drv_F2 drv_F2); [exact CK|exact CK|reflexivity|reflexivity|exact SO|exact SO|intros f; reflexivity|exact EG|vm_compute; reflexivity]. } subst G.
  split; [vm_compute; discriminate|]. intros L [ND HL]. assert (length L <= length [[0; 0; 0]; [0; 0; 1]; [0; 0; 2]; [0; 1; 0]]%N)%nat.
  { apply NoDup_incl_length; [exact ND|]. intros m Hm. apply HL in Hm as [Lm Hs]. destruct m as [|a [|b [|c [|? ?]]]]; try discriminate Lm.
    assert (A : ~ mdvd [1; 0; 0]%N [a; b; c]) by (apply Hs; cbn; auto). assert (B : ~ mdvd [0; 2; 0]%N [a; b; c]) by (apply Hs; cbn; auto). assert (C : ~ mdvd [0; 0; 3]%N [a; b; c]) by (apply Hs; cbn; auto). assert (E : ~ mdvd [0; 1; 1]%N [a; b; c]) by (apply Hs; cbn; auto).
    assert (D : forall u v w, (u <= a)%N -> (v <= b)%N -> (w <= c)%N -> mdvd [u; v; w] [a; b; c]) by (intros x y z Hu Hv Hw [|[|[|i]]]; cbn; [exact Hu|exact Hv|exact Hw|destruct i; lia]).
    assert (a < 1)%N by (apply N.nle_gt; intros Q; apply A, D; lia). assert (b < 2)%N by (apply N.nle_gt; intros Q; apply B, D; lia). assert (c < 3)%N by (apply N.nle_gt; intros Q; apply C, D; lia).
    assert (~ (1 <= b /\ 1 <= c))%N by (intros [Q1 Q2]; apply E, D; lia). assert (a = 0)%N as -> by lia. assert (b = 0 \/ b = 1)%N as [->| ->] by lia; [assert (c = 0 \/ c = 1 \/ c = 2)%N as [->|[->| ->]] by lia|assert (c = 0)%N as -> by lia]; cbn [In]; auto. }
  cbn [length] in H. split; [lia|]. unfold i32_max. lia.
Qed.
Example C78_case : exists E cs, drv_ok 7 (drv_cf 7) (drv_env 7) drv_sort /\ drv_input 7 drv_g2 ["x"%string; "y"%string] drv_s2 /\ small_last (drv_cf 7) drv_sort drv_g2' /\
  solve (drv_cf 7) (drv_env 7) 30 drv_sort 2 10 drv_g2 [1; 2; 1; 2; 1; 2] = Some (Answered (AParam E cs), drv_g2') /\ length E = 5%nat /\ monomial_basis 30 3 (lead_monos drv_G2) = HilbModel.Ok (Some [[0; 0; 0]; [0; 0; 1]; [0; 1; 0]; [0; 0; 2]]%N).
Proof. exists [2; 0; 4; 0; 1], [[0; 0; 0; 6]; [0; 4; 0; 4]]. split; [exact drv_ok2|]. split; [exact drv_input2|]. split; [exact drv_small2|]. split; [vm_compute; reflexivity|]. split; vm_compute; reflexivity. Qed.

(** x^3 - x, y^3 - y, z^2 - z modulo 3, three variables: every solution in every integral domain has coordinates among 0, 1, -1, so there are at most 27; the
    linear form x + 2^e y + 3^e z + A has a coefficient 0 modulo 3, the generator is dropped at the import, A is free and the answer is that there are
    infinitely many solutions. *)
Definition drv_s3 : isys := [[((1, 1), [3; 0; 0]); ((-1, 1), [1; 0; 0])]; [((1, 1), [0; 3; 0]); ((-1, 1), [0; 1; 0])]; [((1, 1), [0; 0; 2]); ((-1, 1), [0; 0; 1])]].
Definition drv_g3 : gens := mkG 3 ["x"%string; "y"%string; "z"%string] [2; 2; 2]%nat [3; 0; 0; 1; 0; 0; 0; 3; 0; 0; 1; 0; 0; 0; 2; 0; 0; 1] [(1, 1); (-1, 1); (1, 1); (-1, 1); (1, 1); (-1, 1)] 3 (-1) 0 false [].
Section Roots.
Variables (K : Type) (k0 k1 : K) (add mul sub : K -> K -> K) (opp : K -> K).
Hypothesis RK : ring_theory k0 k1 add mul sub opp eq.
Add Ring Kr3 : RK.
Lemma drv_roots3 : (forall x y, mul x y = k0 -> x = k0 \/ y = k0) -> forall x, length x = 3%nat -> solves k0 k1 add mul (fun c : coef => kz K k0 k1 add mul opp (fst c)) drv_s3 x -> Forall (fun t => t = k0 \/ t = k1 \/ t = opp k1) x.
Proof.
  intros DO x Lx Sx. destruct x as [|a [|b [|c [|? ?]]]]; try discriminate Lx. unfold solves in Sx. set (phi := fun c0 : coef => kz K k0 k1 add mul opp (fst c0)) in Sx.
  assert (P1 : phi (1, 1) = k1) by reflexivity. assert (P2 : phi (-1, 1) = opp k1) by reflexivity.
  assert (E1 : add (mul a (mul a a)) (opp a) = k0). { rewrite <- (Sx _ (or_introl eq_refl)). cbn [poly_val mono_val fst snd]. rewrite P1, P2. change (Z.to_nat 3) with 3%nat. change (Z.to_nat 2) with 2%nat. change (Z.to_nat 1) with 1%nat. change (Z.to_nat 0) with 0%nat. cbn [InputSpec.kpow]. ring. }
  assert (E2 : add (mul b (mul b b)) (opp b) = k0). { rewrite <- (Sx _ (or_intror (or_introl eq_refl))). cbn [poly_val mono_val fst snd]. rewrite P1, P2. change (Z.to_nat 3) with 3%nat. change (Z.to_nat 2) with 2%nat. change (Z.to_nat 1) with 1%nat. change (Z.to_nat 0) with 0%nat. cbn [InputSpec.kpow]. ring. }
  assert (E3 : add (mul c c) (opp c) = k0). { rewrite <- (Sx _ (or_intror (or_intror (or_introl eq_refl)))). cbn [poly_val mono_val fst snd]. rewrite P1, P2. change (Z.to_nat 3) with 3%nat. change (Z.to_nat 2) with 2%nat. change (Z.to_nat 1) with 1%nat. change (Z.to_nat 0) with 0%nat. cbn [InputSpec.kpow]. ring. }
  assert (SU : forall t u, add t (opp u) = k0 -> t = u). { intros t u H. transitivity (add (add t (opp u)) u); [ring|]. rewrite H. ring. }
  assert (CU : forall t, add (mul t (mul t t)) (opp t) = k0 -> t = k0 \/ t = k1 \/ t = opp k1).
  { intros t H. assert (H1 : mul t (mul (add t (opp k1)) (add t k1)) = k0) by (rewrite <- H; ring). destruct (DO _ _ H1) as [H2|H2]; [now left|]. destruct (DO _ _ H2) as [H3|H3]; [right; left; apply SU; exact H3|]. right. right. apply SU. rewrite <- H3. ring. }
  constructor; [apply CU; exact E1|]. constructor; [apply CU; exact E2|]. constructor; [|constructor]. assert (H1 : mul c (add c (opp k1)) = k0) by (rewrite <- E3; ring). destruct (DO _ _ H1) as [H2|H2]; [now left|right; left; apply SU; exact H2].
Qed.
End Roots.
Theorem C78_small_prime_refuted : exists p cf env fuel sorter gh k g0 names s rnd g, drv_ok p cf env sorter /\ prime p /\ field_char g0 = p /\ fresh g0 /\ rep g0 names s /\ sys_ok p (nvars g0) s /\ nvars g0 = 3%nat /\ p = 3 /\
  solve cf env fuel sorter gh k g0 rnd = Some (Answered APositive, g) /\
  forall K k0 k1 add mul sub opp, ring_mod K k0 k1 add mul sub opp p -> (forall x y, mul x y = k0 -> x = k0 \/ y = k0) ->
    forall x, length x = nvars g0 -> solves k0 k1 add mul (fun c : coef => kz K k0 k1 add mul opp (fst c)) s x -> Forall (fun t => t = k0 \/ t = k1 \/ t = opp k1) x.
Proof.
  exists 3, (drv_cf 3), (drv_env 3), 60%nat, drv_sort, 2, 10%nat, drv_g3, ["x"%string; "y"%string; "z"%string], drv_s3, [1; 2; 1; 2; 1; 2]. eexists.
  split; [apply drv_all; [exact prime_3|lia|]; intros i; apply drv_env_ok; [exact prime_3|lia]|]. split; [exact prime_3|]. split; [reflexivity|]. split; [repeat split|]. split; [repeat split; intros f [<-|[<-|[<-|[]]]] t Ht; cbn [In] in Ht; intuition (subst; reflexivity)|].
  split; [sys_case 3|]. split; [reflexivity|]. split; [reflexivity|]. split; [vm_compute; reflexivity|].
  intros K k0 k1 add mul sub opp [RK RP] DO x Lx Sx. exact (drv_roots3 K k0 k1 add mul sub opp RK DO x Lx Sx).
Qed.
Print Assumptions C78_small_prime_refuted.
