(** Polynomials as coefficient lists: evaluation, division by a linear factor, Descartes' rule. *)
From Coq Require Import ZArith List Reals Lia Lra Psatz Ranalysis Rsqrt_def.
From Verif Require Import PolySpec.
Import ListNotations.
Open Scope R_scope.

Lemma peval_app p q x : peval (p ++ q) x = peval p x + x ^ length p * peval q x.
Proof. induction p as [|a p IH]; cbn [peval app length pow]; [ring|rewrite IH; ring]. Qed.

Lemma zeval_cons a p x : zeval (a :: p) x = IZR a + x * zeval p x.
Proof. reflexivity. Qed.
Lemma zeval_nil x : zeval [] x = 0.
Proof. reflexivity. Qed.
Lemma zeval_app p q x : zeval (p ++ q) x = zeval p x + x ^ length p * zeval q x.
Proof. unfold zeval. rewrite map_app, peval_app, map_length. reflexivity. Qed.
Lemma zeval_IZR p x : zeval p (IZR x) = IZR (zev p x).
Proof. induction p as [|a p IH]; [reflexivity|]. rewrite zeval_cons. cbn [zev]. rewrite plus_IZR, mult_IZR, IH. reflexivity. Qed.
Lemma peval_zero n x : peval (repeat 0 n) x = 0.
Proof. induction n; cbn [repeat peval]; [reflexivity|]. rewrite IHn. ring. Qed.

Lemma peval_cont p : continuity (peval p).
Proof.
  induction p as [|a p IH].
  - apply continuity_const. intros x y. reflexivity.
  - assert (E : forall x, peval (a :: p) x = (fct_cte a + id * peval p)%F x) by reflexivity.
    intros x. apply (continuity_pt_ext_loc _ (peval (a :: p)) x) || idtac.
    assert (C : continuity (fct_cte a + id * peval p)).
    { apply continuity_plus; [apply continuity_const; intros u v; reflexivity|].
      apply continuity_mult; [apply derivable_continuous, derivable_id|assumption]. }
    apply C.
Qed.

(** ** Sign changes with a running sign *)
Fixpoint chg (s : R) (l : list R) : nat :=
  match l with
  | [] => 0%nat
  | a :: l' => if Rlt_dec (s * a) 0 then S (chg a l')
               else if Req_EM_T a 0 then chg s l' else chg a l'
  end.

Lemma chg_sign l : forall s t, 0 < s * t -> chg s l = chg t l.
Proof.
  induction l as [|a l IH]; intros s t H; [reflexivity|]. cbn [chg].
  destruct (Rlt_dec (s * a) 0), (Rlt_dec (t * a) 0).
  - reflexivity.
  - exfalso. nra.
  - exfalso. nra.
  - destruct (Req_EM_T a 0); [auto|reflexivity].
Qed.

Lemma chg_opp l : forall s t, t <> 0 -> (chg s l <= S (chg t l))%nat.
Proof.
  induction l as [|a l IH]; intros s t H; cbn [chg]; [lia|].
  destruct (Rlt_dec (s * a) 0), (Rlt_dec (t * a) 0); try lia.
  - destruct (Req_EM_T a 0); [subst; exfalso; nra|]. lia.
  - destruct (Req_EM_T a 0); [subst; exfalso; nra|]. lia.
  - destruct (Req_EM_T a 0); [auto|]. lia.
Qed.

(** Coefficients of [c + (x - r) q]: lowest first, with the carry [c]. *)
Fixpoint mulx (r c : R) (q : list R) : list R :=
  match q with [] => [c] | a :: q' => (c - r * a) :: mulx r a q' end.

Lemma mulx_eval r q : forall c x, peval (mulx r c q) x = c + (x - r) * peval q x.
Proof. induction q as [|a q IH]; intros c x; cbn [mulx peval]; [ring|]. rewrite IH. ring. Qed.

Ltac sgncases :=
  repeat match goal with
  | |- context [Rlt_dec ?a ?b] => destruct (Rlt_dec a b)
  | |- context [Req_EM_T ?a ?b] => destruct (Req_EM_T a b)
  end.

Lemma neg_prod r a : 0 < r -> a <> 0 -> - (r * a) * a < 0.
Proof. intros Hr Ha. assert (0 < a * a) by (destruct (Rdichotomy a 0 Ha); nra). assert (0 < r * (a * a)) by (apply Rmult_lt_0_compat; assumption). lra. Qed.

Lemma mulx_vars_aux r q (Hr : 0 < r) :
  (forall c s, c <> 0 -> s * c < 0 -> (S (chg c q) <= chg s (mulx r c q))%nat) /\
  (forall t, t <> 0 -> (chg t q <= chg t (mulx r 0 q))%nat).
Proof.
  induction q as [|a q [IHA IHB]].
  - split; intros; cbn [mulx chg]; sgncases; try lia; exfalso; nra.
  - assert (A : forall c s, c <> 0 -> s * c < 0 -> (S (chg c (a :: q)) <= chg s (mulx r c (a :: q)))%nat).
    { intros c s Hc Hs. cbn [mulx].
      destruct (Rtotal_order (c * a) 0) as [N|[Z|P]].
      - (* opposite signs *)
        assert (Ha : a <> 0) by (intros ->; lra).
        assert (Hh : 0 < c * (c - r * a)) by nra.
        cbn [chg]. destruct (Rlt_dec (c * a) 0); [|contradiction].
        destruct (Rlt_dec (s * (c - r * a)) 0) as [L|L]; [|exfalso; nra].
        pose proof (IHA a (c - r * a) Ha ltac:(nra)). lia.
      - assert (Ha : a = 0) by nra. subst a. replace (c - r * 0) with c by ring.
        cbn [chg]. destruct (Rlt_dec (s * c) 0); [|contradiction].
        destruct (Rlt_dec (c * 0) 0); [exfalso; nra|]. destruct (Req_EM_T 0 0); [|contradiction].
        pose proof (IHB c Hc). lia.
      - assert (Ha : a <> 0) by (intros ->; lra).
        assert (E : chg c (a :: q) = chg a q).
        { cbn [chg]. destruct (Rlt_dec (c * a) 0); [exfalso; lra|]. destruct (Req_EM_T a 0); [contradiction|]. reflexivity. }
        rewrite E. cbn [chg].
        destruct (Rlt_dec (s * (c - r * a)) 0) as [L|L].
        + pose proof (IHA a (- a) Ha ltac:(nra)). pose proof (chg_opp (mulx r a q) (- a) (c - r * a) ltac:(nra)). lia.
        + destruct (Req_EM_T (c - r * a) 0) as [Z|Z].
          * apply IHA; [assumption|nra].
          * apply IHA; [assumption|].
            destruct (Rtotal_order s 0) as [S1|[S1|S1]]; [|exfalso; nra|].
            ++ assert (0 < c) by nra. assert (0 < a) by nra. destruct (Rtotal_order (c - r * a) 0) as [T|[T|T]]; [nra|contradiction|exfalso; nra].
            ++ assert (c < 0) by nra. assert (a < 0) by nra. destruct (Rtotal_order (c - r * a) 0) as [T|[T|T]]; [exfalso; nra|contradiction|nra]. }
    split; [exact A|].
    intros t Ht. cbn [mulx]. replace (0 - r * a) with (- (r * a)) by ring.
    destruct (Req_EM_T a 0) as [->|Ha].
    + replace (- (r * 0)) with 0 by ring. cbn [chg]. sgncases; try lia; try (exfalso; nra). apply IHB; assumption.
    + assert (Hra : - (r * a) * a < 0).
      { assert (0 < a * a) by (destruct (Rdichotomy a 0 Ha); nra). assert (0 < r * (a * a)) by (apply Rmult_lt_0_compat; assumption). lra. }
      cbn [chg]. destruct (Rlt_dec (t * - (r * a)) 0) as [L|L].
      * destruct (Rlt_dec (t * a) 0); [exfalso; nra|]. destruct (Req_EM_T a 0); [contradiction|].
        pose proof (IHA a (- (r * a)) Ha Hra). lia.
      * destruct (Req_EM_T (- (r * a)) 0); [exfalso; nra|].
        pose proof (IHA a (- (r * a)) Ha Hra).
        destruct (Rlt_dec (t * a) 0); [lia|]. destruct (Req_EM_T a 0); [contradiction|]. lia.
Qed.

Lemma chg0_skip l : chg 0 (0 :: l) = chg 0 l.
Proof. cbn [chg]. sgncases; try reflexivity; exfalso; nra. Qed.
Lemma chg0_start a l : a <> 0 -> chg 0 (a :: l) = chg a l.
Proof. intros. cbn [chg]. sgncases; try reflexivity; try contradiction; exfalso; nra. Qed.

(** Multiplying a nonzero polynomial by [x - r], [r > 0], creates at least one more sign change. *)
Lemma mulx_vars r q : 0 < r -> (exists a, In a q /\ a <> 0) -> (S (chg 0 q) <= chg 0 (mulx r 0 q))%nat.
Proof.
  intros Hr. induction q as [|a q IH]; intros (b & Hb & Hn); [destruct Hb|].
  cbn [mulx]. destruct (Req_EM_T a 0) as [->|Ha].
  - replace (0 - r * 0) with 0 by ring. rewrite !chg0_skip. apply IH. exists b. destruct Hb as [<-|Hb]; [contradiction|auto].
  - rewrite chg0_start by assumption. replace (0 - r * a) with (- (r * a)) by ring.
    rewrite chg0_start by (intros Z; pose proof (neg_prod r a Hr Ha); rewrite Z in *; lra).
    apply mulx_vars_aux; [assumption|assumption|apply neg_prod; assumption].
Qed.

(** Synthetic division: quotient of [p] by [x - r] and remainder. *)
Fixpoint sdiv (r : R) (p : list R) : list R * R :=
  match p with
  | [] => ([], 0)
  | a :: p' => let '(q, m) := sdiv r p' in (m :: q, a + r * m)
  end.
Lemma sdiv_rem r p : snd (sdiv r p) = peval p r.
Proof. induction p as [|a p IH]; cbn [sdiv peval]; [reflexivity|]. destruct (sdiv r p) as [q m]. cbn in *. subst m. reflexivity. Qed.

(** [p = (x - r) q + p(r)] with the coefficients of [q] listed without the top zero. *)
Lemma sdiv_len r p : length (fst (sdiv r p)) = length p.
Proof. induction p as [|a p IH]; cbn [sdiv]; [reflexivity|]. destruct (sdiv r p). cbn in *. congruence. Qed.

Lemma sdiv_eval r p x : peval p x = (x - r) * peval (fst (sdiv r p)) x + peval p r.
Proof.
  induction p as [|a p IH]; cbn [sdiv peval fst]; [ring|].
  pose proof (sdiv_rem r p) as E. destruct (sdiv r p) as [q m] eqn:D. cbn [fst snd peval] in *.
  rewrite IH. subst m. ring.
Qed.

(** The coefficients of [p] are those of the product. *)
Lemma sdiv_coeffs r p : forall c, mulx r c (fst (sdiv r p)) =
  match p with [] => [c] | a :: p' => (c - r * peval p' r) :: p' ++ [0] end.
Proof.
  induction p as [|a p IH]; intros c; cbn [sdiv]; [reflexivity|].
  pose proof (sdiv_rem r p) as E. destruct (sdiv r p) as [q m]. cbn [fst snd] in *. cbn [mulx]. subst m. f_equal.
  rewrite IH. destruct p as [|b p]; cbn [peval]; [reflexivity|]. cbn [app]. f_equal. ring.
Qed.

Lemma chg_app0 l : forall s, chg s (l ++ [0]) = chg s l.
Proof.
  induction l as [|a l IH]; intros s; cbn [app chg]; [sgncases; try reflexivity; exfalso; nra|].
  sgncases; auto.
Qed.

Lemma nonzero_quot r p : peval p r = 0 -> (exists a, In a p /\ a <> 0) -> exists a, In a (fst (sdiv r p)) /\ a <> 0.
Proof.
  intros H0 (a & Ha & Hn).
  assert (D : (exists b, In b (fst (sdiv r p)) /\ b <> 0) \/ Forall (fun b => b = 0) (fst (sdiv r p))).
  { clear. induction (fst (sdiv r p)) as [|b l IH]; [right; constructor|].
    destruct (Req_EM_T b 0) as [->|N]; [|left; exists b; cbn; auto].
    destruct IH as [(c & H & K)|F]; [left; exists c; cbn; auto|right; constructor; auto]. }
  destruct D as [D|D]; [assumption|exfalso].
  pose proof (sdiv_coeffs r p 0) as E.
  destruct p as [|b p]; [destruct Ha|].
  assert (Z : forall l c, c = 0 -> Forall (fun b => b = 0) l -> Forall (fun b => b = 0) (mulx r c l)).
  { clear. intros l. induction l as [|x l IH]; intros c -> F; cbn [mulx]; [repeat constructor|].
    inversion F; subst. constructor; [ring|]. apply IH; auto. }
  specialize (Z _ 0 eq_refl D). rewrite E in Z. inversion Z as [|? ? Z1 Z2]; subst.
  apply Forall_app in Z2. destruct Z2 as [Z2 _]. cbn [peval] in H0.
  destruct Ha as [->|Ha].
  - apply Hn. nra.
  - apply Hn. rewrite Forall_forall in Z2. auto.
Qed.

(** ** Descartes' rule of signs *)
Lemma increasing_tail a l : increasing (a :: l) -> increasing l.
Proof. destruct l; cbn; tauto. Qed.
Lemma increasing_gt a l : increasing (a :: l) -> forall b, In b l -> a < b.
Proof.
  revert a. induction l as [|b l IH]; intros a H c Hc; [destruct Hc|].
  destruct Hc as [<-|Hc]; [apply H|]. apply Rlt_trans with b; [apply H|]. apply IH; [|assumption].
  apply (increasing_tail a). assumption.
Qed.

Theorem descartes_upper p l : (exists a, In a p /\ a <> 0) -> increasing l ->
  (forall x, In x l -> 0 < x /\ peval p x = 0) -> (length l <= chg 0 p)%nat.
Proof.
  revert p. induction l as [|r l IH]; intros p Hp Hi Hl; [cbn; lia|].
  destruct (Hl r (or_introl eq_refl)) as [Hr H0].
  assert (Hq : exists a, In a (fst (sdiv r p)) /\ a <> 0) by (apply nonzero_quot; assumption).
  pose proof (mulx_vars r _ Hr Hq) as M.
  assert (E : chg 0 (mulx r 0 (fst (sdiv r p))) = chg 0 p).
  { rewrite sdiv_coeffs. destruct p as [|a p]; [destruct Hp as (? & [] & _)|].
    replace (0 - r * peval p r) with a by (cbn [peval] in H0; lra).
    change (a :: p ++ [0]) with ((a :: p) ++ [0]). apply chg_app0. }
  assert (L : (length l <= chg 0 (fst (sdiv r p)))%nat).
  { apply IH; [assumption|apply (increasing_tail r); assumption|]. intros x Hx. split; [apply Hl; right; assumption|].
    assert (r < x) by (apply (increasing_gt r l); assumption).
    pose proof (sdiv_eval r p x) as S. destruct (Hl x (or_intror Hx)) as [_ Z]. rewrite Z, H0 in S. nra. }
  cbn [length]. lia.
Qed.
