(** Proofs about GliftModel. *)
From Coq Require Import ZArith Znumtheory Arith List Bool Lia.
From Verif Require Import ModInvModel ModInvProofs CrtModel CrtProofs GliftModel.
Import ListNotations.
Open Scope Z_scope.

(** ** verification of one coefficient *)
Definition okp (p : Z) : Prop := prime p /\ p < 2 ^ 31.
(** the residue x is that of n / lm, or lm and x vanish *)
Definition verified (lm n p x : Z) : Prop := (~ (p | lm) /\ (p | lm * x - n)) \/ ((p | lm) /\ x = 0).
Lemma okp_pos p : okp p -> 1 < p < 2 ^ 31.
Proof. intros [P L]. destruct P. lia. Qed.
Lemma verif_coef_ok num den p x : okp p -> 0 <= x < p -> exists b, verif_coef num den p x = Some b /\ (b = true <-> verified den num p x).
Proof.
  intros P X. pose proof (okp_pos p P) as Hp. destruct P as [P _]. unfold verif_coef. rewrite (proj2 (Z.eqb_neq p 0)) by lia. pose proof (Z.mod_pos_bound den p ltac:(lia)) as B. pose proof (Z.mod_pos_bound num p ltac:(lia)) as Bn.
  assert (Dm : (p | den - den mod p)) by (apply mod_div; lia). assert (Dn : (p | num - num mod p)) by (apply mod_div; lia). destruct (Zdivide_dec p den) as [Hd|Hd].
  - assert (E : den mod p = 0) by (apply Z.mod_divide; [lia|exact Hd]). rewrite E. change (mod_p_inverse_32 0 p) with (mod_p_inverse 64 32 0 p). rewrite (mod_p_inverse_zero 64 32 0 p) by (lia || apply Z.divide_0_r). cbn [obind]. rewrite Z.mul_0_r, !Z.mod_0_l by lia. eexists. split; [reflexivity|]. rewrite Z.eqb_eq. unfold verified. split; [intros <-; right; auto|intros [[H _]|[_ ->]]; [contradiction|reflexivity]].
  - destruct (mod_p_inverse_prime 64 32 (den mod p) p) as (c & Ec & Hc & Hcm); try lia; auto. { intros H. apply Hd. replace den with ((den - den mod p) + den mod p) by lia. apply Z.divide_add_r; assumption. }
    change (mod_p_inverse_32 (den mod p) p) with (mod_p_inverse 64 32 (den mod p) p). rewrite Ec. cbn [obind]. eexists. split; [reflexivity|]. rewrite Z.eqb_eq. rewrite (Z.mod_small (_ * _) (2 ^ 64)) by nia.
    assert (I : (p | c * den - 1)). { replace (c * den - 1) with (c * (den - den mod p) + (c * (den mod p) - 1)) by ring. apply Z.divide_add_r; [apply Z.divide_mul_r; exact Dm|]. rewrite <- Hcm. apply mod_div. lia. }
    assert (F : (p | num mod p * c - (num mod p * c) mod p)) by (apply mod_div; lia). split.
    + intros E. rewrite E in F. left. split; [exact Hd|]. replace (den * x - num) with (den * (x - num mod p * c) + ((num mod p) * (c * den - 1) + (num mod p - num))) by ring. apply Z.divide_add_r; [apply Z.divide_mul_r; apply Z.divide_opp_r in F; replace (x - num mod p * c) with (- (num mod p * c - x)) by ring; exact F|]. apply Z.divide_add_r; [apply Z.divide_mul_r; exact I|]. replace (num mod p - num) with (- (num - num mod p)) by ring. apply Z.divide_opp_r. exact Dn.
    + intros [[_ H]|[H _]]; [|contradiction]. assert (G : (p | (num mod p * c) mod p - x)).
      { replace ((num mod p * c) mod p - x) with (- (num mod p * c - (num mod p * c) mod p) + ((num mod p - num) * c + (- (c * (den * x - num)) + x * (c * den - 1)))) by ring. apply Z.divide_add_r; [apply Z.divide_opp_r; exact F|]. apply Z.divide_add_r; [apply Z.divide_mul_l; replace (num mod p - num) with (- (num - num mod p)) by ring; apply Z.divide_opp_r; exact Dn|]. apply Z.divide_add_r; [apply Z.divide_opp_r; apply Z.divide_mul_r; exact H|apply Z.divide_mul_r; exact I]. }
      pose proof (Z.mod_pos_bound (num mod p * c) p ltac:(lia)) as B2. destruct G as [k G]. assert (k = 0) by nia. subst k. lia.
Qed.

(** ** primes and residues *)
Definition primes_ok (L : list Z) : Prop := (forall p, In p L -> okp p) /\ NoDup L.
Definition prod (L : list Z) : Z := fold_right Z.mul 1 L.
Definition residues (L : list Z) (r : list Z) : Prop := Forall2 (fun p x => 0 <= x < p) L r.
Lemma prod_pos L : (forall p, In p L -> okp p) -> 0 < prod L.
Proof. induction L as [|p L IH]; intros H; cbn [prod fold_right]; [lia|]. pose proof (okp_pos p (H p (or_introl eq_refl))). assert (0 < prod L) by (apply IH; intros q Hq; apply H; right; exact Hq). unfold prod in *. nia. Qed.
Lemma prod_gt L : (forall p, In p L -> okp p) -> L <> [] -> 1 < prod L.
Proof. intros H N. destruct L as [|p L]; [congruence|]. cbn [prod fold_right]. pose proof (okp_pos p (H p (or_introl eq_refl))). assert (0 < prod L) by (apply prod_pos; intros q Hq; apply H; right; exact Hq). unfold prod in *. nia. Qed.
Lemma prod_in L p : In p L -> (p | prod L).
Proof. induction L as [|q L IH]; intros []; cbn [prod fold_right]; [subst; apply Z.divide_factor_l|apply Z.divide_mul_r, IH; assumption]. Qed.
Lemma primes_coprime p q : prime p -> prime q -> p <> q -> Z.gcd p q = 1.
Proof.
  intros P Q N. apply Zgcd_1_rel_prime. apply prime_rel_prime; [exact P|]. intros D. apply prime_divisors in D; [|exact Q]. destruct P, Q. lia.
Qed.
Lemma prod_coprime L p : primes_ok (p :: L) -> Z.gcd (prod L) p = 1.
Proof.
  intros [A B]. inversion B as [|? ? N _]; subst. assert (H : forall q, In q L -> In q L) by auto. revert H N. generalize L at 1 3 4. intros K. induction K as [|q K IH]; intros H N; [apply Z.gcd_1_l|]. cbn [prod fold_right].
  apply Zgcd_1_rel_prime, rel_prime_sym, rel_prime_mult; apply rel_prime_sym, Zgcd_1_rel_prime.
  - apply primes_coprime; [apply (A q); right; apply H; left; reflexivity|apply (A p); left; reflexivity|]. intros ->. apply N. left; reflexivity.
  - apply IH; [intros z Hz; apply H; right; exact Hz|intros Hz; apply N; right; exact Hz].
Qed.
Lemma combine_in (r L : list Z) x p : In (x, p) (combine r L) -> In p L.
Proof. apply in_combine_r. Qed.
Lemma residues_comb L r : residues L r -> Forall (fun xp => 0 <= fst xp < snd xp) (combine r L).
Proof. induction 1; cbn [combine]; constructor; auto. Qed.
(** the value reconstructed from the residues: congruent to those of all primes but the newest *)
Lemma crt_value_ok p L x r : primes_ok (p :: L) -> residues (p :: L) (x :: r) -> exists u, crt_value (p :: L) (x :: r) = Some u /\ forall y q, In (y, q) (combine r L) -> (q | u - y).
Proof.
  intros [A B] R. inversion R as [|? ? ? ? R1 R2]; subst. unfold crt_value. destruct (crt_fold_ok true (combine r L ++ [(0, p)]) 0 1) as (u & E & _ & _ & _ & C); [lia|lia|cbn; lia| |].
  - inversion B as [|? ? N ND]; subst. assert (A' : forall q, In q L -> okp q) by (intros q Hq; apply A; right; exact Hq). pose proof (okp_pos p (A p (or_introl eq_refl))) as Hp. apply good_moduli_of.
    + apply Forall_app. split; [|repeat constructor; cbn; lia]. apply Forall_forall. intros [y q] Hy. pose proof (okp_pos q (A' q (combine_in _ _ _ _ Hy))). pose proof (proj1 (Forall_forall _ _) (residues_comb L r R2) _ Hy). cbn in *. lia.
    + apply Forall_forall. intros [y q] _. cbn. apply Z.gcd_1_l.
    + assert (Pp : prime p) by (apply (A p); left; reflexivity). clear R1 Hp. revert R2 N ND A'. clear R A B. intros R2. revert r R2. induction L as [|q L IH]; intros r R2 N ND A'; inversion R2 as [|? y ? r' R3 R4]; subst; cbn [combine app]; [repeat constructor|]. inversion ND; subst. constructor.
      * apply Forall_app. split; [|repeat constructor; cbn; apply primes_coprime; [apply (A' q); left; reflexivity|exact Pp|]]. 
        -- apply Forall_forall. intros [z s] Hz. cbn. apply primes_coprime; [apply (A' q); left; reflexivity|apply (A' s); right; apply (combine_in _ _ _ _ Hz)|]. intros ->. apply combine_in in Hz. contradiction.
        -- intros ->. apply N. left; reflexivity.
      * apply IH; auto. intros H. apply N. right; exact H. intros s Hs. apply A'. right; exact Hs.
  - rewrite E. cbn [obind fst]. exists u. split; [reflexivity|]. intros y q Hy. apply C. apply in_or_app. left. exact Hy.
Qed.

(** ** invariant of one polynomial *)
Definition lifted (v : nat) (P : list Z) (g : pol) : Prop :=
  0 < g_lm g /\ (v < length P)%nat /\ Forall2 (fun nd res => snd nd = 1 /\ forall x p, In (x, p) (skipn v (combine res P)) -> (p | g_lm g * x - fst nd)) (g_qq g) (g_img g).
Definition checked (j : nat) (P : list Z) (g : pol) : Prop :=
  exists p, nth_error P j = Some p /\ Forall2 (fun nd res => exists x, nth_error res j = Some x /\ verified (g_lm g) (fst nd) p x) (g_qq g) (g_img g).
Record PI (lo : nat) (Q P : list Z) (p0 : Z) (g : pol) : Prop := {
  pi_len : length (g_qq g) = length (g_img g);
  pi_coef : (g_coef g < length (g_img g))%nat;
  pi_res : forall r, In r (g_img g) -> residues (P ++ [p0]) r;
  pi_c1 : g_c1 g <> 0%nat -> 0 < g_den g /\ Q <> [];
  pi_c2 : g_c2 g <> 0%nat -> exists v, (lo <= v)%nat /\ lifted v P g /\ ((2 <= g_c2 g)%nat -> exists j, (j < v)%nat /\ checked j P g) }.
(** same residues and same lift of the witness coefficient *)
Definition same_img (g g' : pol) : Prop := g_img g' = g_img g /\ g_crt g' = g_crt g.
Definition PIs lo Q P p0 (l l' : list pol) : Prop := Forall (PI lo Q P p0) l' /\ Forall2 same_img l l'.
Lemma same_refl l : Forall2 same_img l l.
Proof. induction l; constructor; [split; reflexivity|assumption]. Qed.
Lemma same_trans a b c : Forall2 same_img a b -> Forall2 same_img b c -> Forall2 same_img a c.
Proof. intros H. revert c. induction H as [|x y l l' [A B] _ IH]; intros c K; inversion K as [|? z ? c' [C D] K']; subst; constructor; [split; congruence|apply IH; assumption]. Qed.
Lemma same_app a b c d : Forall2 same_img a b -> Forall2 same_img c d -> Forall2 same_img (a ++ c) (b ++ d).
Proof. apply Forall2_app. Qed.
Lemma PI_c1 lo Q P p0 g n : PI lo Q P p0 g -> (n <> 0%nat -> g_c1 g <> 0%nat) -> PI lo Q P p0 (set_c1 n g).
Proof. intros [A B C D E] H. constructor; cbn; auto. Qed.
Lemma PI_c20 lo Q P p0 g : PI lo Q P p0 g -> PI lo Q P p0 (set_c2 0 g).
Proof. intros [A B C D E]. constructor; cbn; auto. intros H. congruence. Qed.
Lemma newest_ok lo Q p P p0 g i : PI lo Q (p :: P) p0 g -> (i < length (g_img g))%nat -> exists x, newest g i = Some x /\ 0 <= x < p.
Proof.
  intros H L. unfold newest. destruct (nth_error (g_img g) i) as [r|] eqn:E; [|apply nth_error_None in E; lia]. cbn [obind]. pose proof (pi_res _ _ _ _ _ H r (nth_error_In _ _ E)) as R. inversion R as [|? x ? r' R1 R2]; subst. exists x. split; [reflexivity|exact R1].
Qed.
Lemma map_c1 lo Q P p0 l : Forall (PI lo Q P p0) l -> PIs lo Q P p0 l (map (set_c1 0) l).
Proof. intros H. split; [induction H; cbn; constructor; [apply PI_c1; [assumption|congruence]|assumption]|clear H; induction l; cbn; constructor; [split; reflexivity|assumption]]. Qed.
Lemma PIs_cons lo Q P p0 g g' l l' : PI lo Q P p0 g' -> same_img g g' -> PIs lo Q P p0 l l' -> PIs lo Q P p0 (g :: l) (g' :: l').
Proof. intros A B [C D]. split; constructor; assumption. Qed.
Lemma verif_wcoef_ok lo Q p P p0 n : okp p -> forall l k start, Forall (PI lo Q (p :: P) p0) l -> exists l' s, verif_wcoef p n l k start = Some (l', s) /\ PIs lo Q (p :: P) p0 l l'.
Proof.
  intros Hp. induction l as [|g l IH]; intros k start H; cbn [verif_wcoef]; [exists [], start; split; [reflexivity|split; constructor]|]. inversion H as [|? ? H1 H2]; subst. destruct (Nat.eqb_spec (g_c1 g) 0) as [E|E]; [eexists; eexists; split; [reflexivity|]; split; [exact H|apply same_refl]|].
  destruct (newest_ok _ _ _ _ _ g (g_coef g) H1 (pi_coef _ _ _ _ _ H1)) as (x & -> & Hx). cbn [obind]. destruct (verif_coef_ok (g_num g) (g_den g) p x Hp Hx) as (b & -> & _). cbn [obind]. destruct b; cbn [negb].
  - destruct (IH (S k) (Nat.min (start + 1) n) H2) as (l' & s & -> & HH). cbn [obind fst snd]. eexists; eexists; split; [reflexivity|]. apply PIs_cons; [apply PI_c1; [exact H1|auto]|split; reflexivity|exact HH].
  - eexists; eexists; split; [reflexivity|]. apply (map_c1 lo Q (p :: P) p0 (g :: l)). exact H.
Qed.
(** ** verification of all the coefficients *)
Lemma verif_coefs_ok p P p0 lm : okp p -> forall qq img, length qq = length img -> (forall r, In r img -> residues (p :: P ++ [p0]) r) -> (forall nd, In nd qq -> snd nd = 1) ->
  exists b, verif_coefs p lm qq img = Some b /\ (b = true -> Forall2 (fun nd res => exists x, nth_error res 0 = Some x /\ verified lm (fst nd) p x) qq img).
Proof.
  intros Hp. induction qq as [|[n d] qq IH]; intros [|r img] L R D; cbn in L; try discriminate; cbn [verif_coefs]; [exists true; split; [reflexivity|constructor]|]. assert (Rr : residues (p :: P ++ [p0]) r) by (apply R; left; reflexivity). inversion Rr as [|? x ? r' R1 R2]; subst. cbn [hd_error obind].
  assert (d = 1) by (apply (D (n, d)); left; reflexivity). subst d. rewrite Z.mul_1_r. destruct (verif_coef_ok n lm p x Hp R1) as (b & -> & B). cbn [obind]. destruct b; [|exists false; split; [reflexivity|discriminate]]. destruct (IH img) as (b' & -> & B'); [lia|intros s Hs; apply R; right; exact Hs|intros nd Hnd; apply D; right; exact Hnd|].
  exists b'. split; [reflexivity|]. intros E. constructor; [exists x; split; [reflexivity|apply B; reflexivity]|apply B'; exact E].
Qed.
Lemma lifted_den v P g nd : lifted v P g -> In nd (g_qq g) -> snd nd = 1.
Proof. intros (_ & _ & H). revert H. generalize (g_img g). induction (g_qq g) as [|a q IH]; intros l H; [intros []|]. inversion H as [|? ? ? ? [H1 _] H2]; subst. intros [<-|Hi]; [exact H1|apply (IH _ H2 Hi)]. Qed.
Lemma verif_basis_loop_ok Q p P p0 : okp p -> forall l, Forall (PI 1 Q (p :: P) p0) l -> exists l' b, verif_basis_loop p l = Some (l', b) /\ PIs 1 Q (p :: P) p0 l l'.
Proof.
  intros Hp. induction l as [|g l IH]; intros H; cbn [verif_basis_loop]; [exists [], true; split; [reflexivity|split; constructor]|]. inversion H as [|? ? H1 H2]; subst. destruct (IH H2) as (l' & b' & El & HH). destruct ((1 <=? g_c1 g)%nat && (0 <? g_c2 g)%nat && (g_c2 g <? 2)%nat) eqn:E.
  - apply andb_prop in E as [E E3]. apply andb_prop in E as [E1 E2]. apply Nat.leb_le in E1. apply Nat.ltb_lt in E2, E3. destruct H1 as [A B C D F]. destruct (F ltac:(lia)) as (v & V1 & V2 & _).
    destruct (verif_coefs_ok p P p0 (g_lm g) Hp (g_qq g) (g_img g) A C (fun nd Hn => lifted_den _ _ _ nd V2 Hn)) as (b & -> & Bb). cbn [obind]. destruct b.
    + rewrite El. cbn [obind fst snd]. eexists; eexists; split; [reflexivity|]. apply PIs_cons; [|split; reflexivity|exact HH]. constructor; cbn; auto. intros _. exists v. split; [exact V1|]. split; [exact V2|]. intros _. exists 0%nat. split; [lia|]. exists p. split; [reflexivity|]. apply Bb. reflexivity.
    + eexists; eexists; split; [reflexivity|]. split; [constructor; [|exact H2]; apply PI_c20; constructor; assumption|constructor; [split; reflexivity|apply same_refl]].
  - rewrite El. cbn [obind fst snd]. eexists; eexists; split; [reflexivity|]. apply PIs_cons; [exact H1|split; reflexivity|exact HH].
Qed.
Lemma verif_lifted_basis_ok Q p P p0 l gden : okp p -> l <> [] -> 0 < gden -> Forall (PI 1 Q (p :: P) p0) l -> exists l' gd b, verif_lifted_basis p l gden = Some (l', gd, b) /\ 0 < gd /\ PIs 1 Q (p :: P) p0 l l'.
Proof.
  intros Hp N G H. unfold verif_lifted_basis. destruct (nth_error (rev l) 0) as [e|] eqn:E; [|apply nth_error_None in E; rewrite rev_length in E; destruct l; [congruence|cbn in E; lia]]. cbn [obind]. destruct (g_c1 e =? 0)%nat; [eexists; eexists; eexists; split; [reflexivity|]; split; [exact G|]; split; [exact H|apply same_refl]|].
  destruct (verif_basis_loop_ok Q p P p0 Hp l H) as (l' & b & -> & HH). cbn [obind fst snd]. eexists; eexists; eexists; split; [reflexivity|]. split; [destruct b; lia|exact HH].
Qed.
(** ** bounds of the reconstruction *)
Lemma root3_loop_nonneg b : forall r n, 0 <= r -> 0 <= root3_loop b r n.
Proof. induction b as [|b IH]; intros r n H; cbn [root3_loop]; [exact H|]. apply IH. destruct (_ <=? _); [|exact H]. pose proof (Z.pow_nonneg 2 (Z.of_nat b) ltac:(lia)). lia. Qed.
Lemma root3_loop_mono b : forall r n, r <= root3_loop b r n.
Proof. induction b as [|b IH]; intros r n; cbn [root3_loop]; [lia|]. destruct (_ <=? _); [|apply IH]. pose proof (Z.pow_nonneg 2 (Z.of_nat b) ltac:(lia)). pose proof (IH (r + 2 ^ Z.of_nat b) n). lia. Qed.
Lemma root3_pos n : 1 <= n -> 1 <= root3 n.
Proof.
  intros H. unfold root3. pose proof (Z.log2_nonneg n). assert (E : Z.to_nat (Z.log2 n + 2) = S (Z.to_nat (Z.log2 n + 1))) by lia. rewrite E. clear E. generalize (Z.to_nat (Z.log2 n + 1)). intros b. assert (G : forall b r, 0 <= r -> 1 <= r \/ (0 < b)%nat -> 1 <= root3_loop b r n).
  { clear b. induction b as [|b IH]; intros r Hr C; cbn [root3_loop]; [lia|]. destruct b as [|b].
    - cbn [root3_loop]. change (2 ^ Z.of_nat 0) with 1. destruct (Z.eq_dec r 0) as [->|N]; [|destruct (_ <=? _); lia]. change ((0 + 1) ^ 3) with 1. rewrite (proj2 (Z.leb_le 1 n) H). lia.
    - pose proof (Z.pow_nonneg 2 (Z.of_nat (S b)) ltac:(lia)). destruct (_ <=? _); apply IH; lia. }
  apply G; [lia|right; lia].
Qed.
Lemma set_recdata_ok ls m : 1 < m -> exists N1 D1 N2 D2, set_recdata ls m = Some (N1, D1, (N2, D2)) /\ 0 <= N1 /\ 0 <= N2.
Proof.
  intros H. assert (Hh : 1 <= m / 2) by (apply Z.div_le_lower_bound; lia). unfold set_recdata. pose proof (Z.sqrt_nonneg (m / 2)). destruct (ls =? 0)%nat; [do 4 eexists; split; [reflexivity|]; lia|]. pose proof (root3_pos (m / 2) Hh). rewrite (proj2 (Z.eqb_neq _ _)) by lia. do 4 eexists. split; [reflexivity|]. split; [apply Z.div_pos; lia|assumption].
Qed.
(** ** lifting of the coefficients *)
Lemma skipn1_in (r Q : list Z) (p0 y q : Z) : In (y, q) (combine r Q) -> In (y, q) (combine r (Q ++ [p0])).
Proof. revert r. induction Q as [|a Q IH]; intros [|b r] H; cbn in *; try contradiction. destruct H as [H|H]; [left; exact H|right; apply IH; exact H]. Qed.
Lemma lift_coefs_ok p Q p0 den N D : primes_ok (p :: Q ++ [p0]) -> Q <> [] -> 0 <= N -> forall img old tmp, length old = length img -> (forall r, In r img -> residues (p :: Q ++ [p0]) r) -> 0 < tmp ->
  exists q t b, lift_coefs (p :: Q ++ [p0]) (prod Q) den N D img old tmp = Some (q, t, b) /\ length q = length img /\ 0 < t /\ (tmp | t) /\
  (b = true -> Forall2 (fun nd res => 0 < snd nd /\ (snd nd | t) /\ forall x s, In (x, s) (skipn 1 (combine res (p :: Q))) -> (s | fst nd - snd nd * den * x)) q img).
Proof.
  intros OK NQ HN. assert (AQ : forall s, In s Q -> okp s) by (intros s Hs; apply OK; right; apply in_or_app; left; exact Hs). pose proof (prod_gt Q AQ NQ) as Hm. induction img as [|r img IH]; intros [|o old] tmp L R T; cbn in L; try discriminate; cbn [lift_coefs]; [exists [], tmp, true; split; [reflexivity|]; split; [reflexivity|]; split; [exact T|]; split; [apply Z.divide_refl|]; intros _; constructor|].
  assert (Rr : residues (p :: Q ++ [p0]) r) by (apply R; left; reflexivity). destruct r as [|x r]; [inversion Rr|]. destruct (crt_value_ok p (Q ++ [p0]) x r OK Rr) as (u & Eu & Hu). rewrite Eu. cbn [obind].
  destruct (ratreconwden_total u (prod Q) den N D ltac:(lia) HN) as (r0 & r1 & t0 & t1 & ER & _). rewrite ER. cbn [obind]. destruct (rr_final D r1 t1) as [[b n] d] eqn:EF. destruct b.
  - destruct (ratreconwden_sound u (prod Q) den N D n d Hm HN ER) as (S1 & S2 & S3 & S4). assert (T2 : 0 < Z.lcm tmp d) by (pose proof (Z.lcm_nonneg tmp d); assert (Z.lcm tmp d <> 0) by (intros Z0; apply Z.lcm_eq_0 in Z0; lia); lia).
    destruct (IH old (Z.lcm tmp d)) as (q & t & b & E & Lq & Ht & Dt & HH); [lia|intros s Hs; apply R; right; exact Hs|exact T2|]. rewrite E. cbn [obind]. exists ((n, d) :: q), t, b. split; [reflexivity|]. split; [cbn; lia|]. split; [exact Ht|]. split; [eapply Z.divide_trans; [apply Z.divide_lcm_l|exact Dt]|]. intros Hb. constructor; [|apply HH; exact Hb].
    cbn [fst snd]. split; [lia|]. split; [eapply Z.divide_trans; [apply Z.divide_lcm_r|exact Dt]|]. intros y s Hy. cbn [combine skipn] in Hy. assert (Ds : (s | prod Q)) by (apply prod_in; apply (combine_in _ _ _ _ Hy)). apply (skipn1_in r Q p0) in Hy. specialize (Hu y s Hy).
    replace (n - d * den * y) with ((n - d * den * u) + d * den * (u - y)) by ring. apply Z.divide_add_r; [eapply Z.divide_trans; eassumption|apply Z.divide_mul_r; exact Hu].
  - eexists; eexists; eexists; split; [reflexivity|]. split; [cbn; lia|]. split; [exact T|]. split; [apply Z.divide_refl|discriminate].
Qed.
Lemma scale_ok p Q den t q img : 0 < t -> Forall2 (fun nd res => 0 < snd nd /\ (snd nd | t) /\ forall x s, In (x, s) (skipn 1 (combine res (p :: Q))) -> (s | fst nd - snd nd * den * x)) q img ->
  Forall2 (fun nd res => snd nd = 1 /\ forall x s, In (x, s) (skipn 1 (combine res (p :: Q))) -> (s | den * t * x - fst nd)) (scale t q) img.
Proof.
  intros T. induction 1 as [|[n d] r q img (H1 & [k H2] & H3) _ IH]; cbn [scale map]; constructor; [|exact IH]. cbn [fst snd] in *. split; [reflexivity|]. intros x s Hx. specialize (H3 x s Hx). assert (E : n * t / d = n * k) by (rewrite H2; replace (n * (k * d)) with (n * k * d) by ring; apply Z.div_mul; lia). rewrite E, H2. replace (den * (k * d) * x - n * k) with (- (k * (n - d * den * x))) by ring. apply Z.divide_opp_r, Z.divide_mul_r. exact H3.
Qed.
Lemma lift_loop_ok p Q p0 N D e : primes_ok (p :: Q ++ [p0]) -> 0 <= N -> forall l k gden, 0 < gden -> Forall (PI 1 Q (p :: Q) p0) l ->
  exists l' st gd, lift_loop (p :: Q ++ [p0]) (prod Q) N D l k e gden = Some (l', st, gd) /\ 0 < gd /\ PIs 1 Q (p :: Q) p0 l l'.
Proof.
  intros OK HN. induction l as [|g l IH]; intros k gden G H; cbn [lift_loop]; [exists [], e, gden; split; [reflexivity|]; split; [exact G|split; constructor]|]. inversion H as [|? ? H1 H2]; subst. destruct (Nat.leb_spec 1 (g_c1 g)) as [C|C].
  - pose proof H1 as [A B R C1 C2]. destruct (C1 ltac:(lia)) as [Dp NQ]. destruct (lift_coefs_ok p Q p0 (g_den g) N D OK NQ HN (g_img g) (g_qq g) 1 A R ltac:(lia)) as (q & t & b & -> & Lq & Ht & _ & HH). cbn [obind]. destruct b.
    + destruct (IH (S k) gden G H2) as (l' & st & gd & -> & G' & HL). cbn [obind]. eexists; eexists; eexists; split; [reflexivity|]. split; [exact G'|]. apply PIs_cons; [|split; reflexivity|exact HL]. constructor; cbn.
      * unfold scale. rewrite map_length. exact Lq.
      * exact B.
      * exact R.
      * exact C1.
      * intros _. exists 1%nat. split; [lia|]. split; [|lia]. split; [cbn; nia|]. split; [cbn; destruct Q; [congruence|cbn; lia]|]. cbn. apply scale_ok; [exact Ht|apply HH; reflexivity].
    + eexists; eexists; eexists; split; [reflexivity|]. split; [lia|]. split; [constructor; [|exact H2]|constructor; [split; reflexivity|apply same_refl]]. constructor; cbn; auto. congruence.
  - eexists; eexists; eexists; split; [reflexivity|]. split; [exact G|]. split; [exact H|apply same_refl].
Qed.
(** ** lift of the witness coefficients *)
Definition CI (m : Z) (g : pol) : Prop := 2 * Z.abs (g_crt g) <= m.
Lemma incr_crt_ok lo Q p P p0 : okp p -> primes_ok (p :: Q) -> forall l, Forall (PI lo Q (p :: P) p0) l -> Forall (CI (prod Q)) l -> exists l', incr_crt (prod Q) p l = Some l' /\ Forall (PI lo Q (p :: P) p0) l' /\ map g_img l' = map g_img l /\ Forall (CI (prod Q * p)) l'.
Proof.
  intros Hp OK. assert (Hm : 0 < prod Q) by (apply prod_pos; intros s Hs; apply OK; right; exact Hs). pose proof (okp_pos p Hp) as Bp. induction l as [|g l IH]; intros H C; cbn [incr_crt]; [exists []; auto|]. inversion H as [|? ? H1 H2]; inversion C as [|? ? C1 C2]; subst.
  destruct (newest_ok _ _ _ _ _ g (g_coef g) H1 (pi_coef _ _ _ _ _ H1)) as (x & -> & Hx). cbn [obind]. unfold CI in C1. destruct (mpz_CRT_ui_ok (g_crt g) (prod Q) x p true Hm ltac:(lia) (prod_coprime Q p OK) ltac:(lia) Hx) as (y & -> & _ & _ & By). cbn [obind]. destruct (IH H2 C2) as (l' & -> & I1 & I2 & I3). cbn [obind]. eexists. split; [reflexivity|].
  split; [constructor; [|exact I1]; destruct H1; constructor; cbn; auto|]. split; [cbn; rewrite I2; reflexivity|]. constructor; [exact By|exact I3].
Qed.
Lemma reconstructcoeff_ok crt m gden N1 D1 N2 D2 : 1 < m -> 0 <= N1 -> 0 <= N2 -> 0 < gden -> 2 * Z.abs crt <= m -> exists b n d gd, reconstructcoeff crt m gden N1 D1 N2 D2 = Some (b, n, d, gd) /\ 0 < gd /\ (b = true -> 0 < d).
Proof.
  intros Hm H1 H2 G C. unfold reconstructcoeff. destruct (ratreconwden_total crt m gden N1 D1 ltac:(lia) H1) as (r0 & r1 & t0 & t1 & E & _). rewrite E. cbn [obind]. destruct (rr_final D1 r1 t1) as [[b n] d]. destruct b.
  - destruct (ratreconwden_sound crt m gden N1 D1 n d Hm H1 E) as (_ & _ & Hd & _). assert (P : 0 < d * gden) by nia. pose proof (Z.gcd_nonneg (d * gden) n). assert (Z.gcd (d * gden) n <> 0) by (intros Z0; apply Z.gcd_eq_0_l in Z0; lia). rewrite (proj2 (Z.eqb_neq _ _)) by assumption. do 4 eexists. split; [reflexivity|].
    assert (X : 0 < d * gden / Z.gcd (d * gden) n) by (apply Z.div_str_pos; split; [lia|]; apply Z.divide_pos_le; [exact P|apply Z.gcd_divide_l]). auto.
  - destruct (ratrecon_total crt m N2 D2 ltac:(lia) H2 ltac:(lia)) as (s0 & s1 & u0 & u1 & E2 & _). rewrite E2. cbn [obind]. destruct (rr_final D2 s1 u1) as [[b2 n2] d2]. do 4 eexists. split; [reflexivity|]. destruct b2; [|split; [exact G|discriminate]]. destruct (ratrecon_sound crt m N2 D2 n2 d2 Hm H2 ltac:(lia) E2) as (_ & _ & Hd & _). split; [lia|intros _; lia].
Qed.
Lemma rec_loop_ok lo Q P p0 m N1 D1 N2 D2 : 1 < m -> 0 <= N1 -> 0 <= N2 -> Q <> [] -> forall l gden, 0 < gden -> Forall (PI lo Q P p0) l -> Forall (CI m) l -> exists l' gd, rec_loop m N1 D1 N2 D2 l gden = Some (l', gd) /\ 0 < gd /\ PIs lo Q P p0 l l'.
Proof.
  intros Hm H1 H2 NQ. induction l as [|g l IH]; intros gden G H C; cbn [rec_loop]; [exists [], gden; split; [reflexivity|]; split; [exact G|split; constructor]|]. inversion H as [|? ? I1 I2]; inversion C as [|? ? C1 C2]; subst. destruct (reconstructcoeff_ok (g_crt g) m gden N1 D1 N2 D2 Hm H1 H2 G C1) as (b & n & d & gd & -> & G1 & G2). cbn [obind]. pose proof I1 as [A B R E F]. destruct b.
  - destruct (IH gd G1 I2 C2) as (l' & gd' & -> & G' & HL). cbn [obind fst snd]. eexists; eexists; split; [reflexivity|]. split; [exact G'|]. apply PIs_cons; [|split; reflexivity|exact HL]. constructor; cbn; auto.
  - eexists; eexists; split; [reflexivity|]. split; [exact G1|]. split; [constructor; [|exact I2]|constructor; [split; reflexivity|apply same_refl]]. constructor; cbn; auto; congruence.
Qed.
(** ** one round *)
Lemma NoDup_app1 {A} (a b : list A) : NoDup (a ++ b) -> NoDup a.
Proof. induction a as [|x a IH]; cbn; intros H; [constructor|]. inversion H as [|? ? H1 H2]; subst. constructor; [intros I; apply H1, in_or_app; left; exact I|apply IH; exact H2]. Qed.
Lemma split3 {A} (l : list A) a b : l = firstn a l ++ firstn (b - a) (skipn a l) ++ skipn (Nat.max a b) l.
Proof.
  rewrite <- (firstn_skipn a l) at 1. f_equal. rewrite <- (firstn_skipn (b - a) (skipn a l)) at 1. f_equal. destruct (Nat.le_ge_cases a b) as [H|H].
  - rewrite Nat.max_r by lia. clear -H. revert a b H. induction l as [|x l IH]; intros a b H; [rewrite !skipn_nil; reflexivity|]. destruct a as [|a]; [rewrite Nat.sub_0_r; reflexivity|]. destruct b as [|b]; [lia|]. cbn [skipn Nat.sub]. apply IH. lia.
  - rewrite Nat.max_l by lia. replace (b - a)%nat with 0%nat by lia. reflexivity.
Qed.
Lemma Forall_split {A} (R : A -> Prop) a l : Forall R l -> Forall R (firstn a l) /\ Forall R (skipn a l).
Proof. intros H. apply Forall_app. rewrite firstn_skipn. exact H. Qed.
Lemma PIs_app lo Q P p0 a b c d : PIs lo Q P p0 a b -> PIs lo Q P p0 c d -> PIs lo Q P p0 (a ++ c) (b ++ d).
Proof. intros [A B] [C D]. split; [apply Forall_app; auto|apply same_app; assumption]. Qed.
Lemma PIs_refl lo Q P p0 l : Forall (PI lo Q P p0) l -> PIs lo Q P p0 l l.
Proof. intros H. split; [exact H|apply same_refl]. Qed.
Lemma PIs_trans lo Q P p0 a b c : PIs lo Q P p0 a b -> PIs lo Q P p0 b c -> PIs lo Q P p0 a c.
Proof. intros [A B] [C D]. split; [exact C|apply (same_trans a b c); assumption]. Qed.
Lemma same_nil a b : Forall2 same_img a b -> a <> [] -> b <> [].
Proof. intros H N. destruct H; [congruence|discriminate]. Qed.
Lemma same_CI m a b : Forall2 same_img a b -> Forall (CI m) a -> Forall (CI m) b.
Proof. intros H. induction H as [|x y l l' [_ E] _ IH]; intros K; constructor; inversion K; subst; [unfold CI in *; rewrite E; assumption|auto]. Qed.
Lemma same_map a b : Forall2 same_img a b -> map g_img b = map g_img a.
Proof. intros H. induction H as [|x y l l' [E _] _ IH]; cbn; [reflexivity|rewrite E, IH; reflexivity]. Qed.
Lemma PI_next Q p p0 g : PI 1 Q (p :: Q) p0 g -> PI 0 (p :: Q) (p :: Q) p0 g.
Proof. intros [A B C D E]. constructor; auto. - intros H. destruct (D H). split; [assumption|discriminate]. - intros H. destruct (E H) as (v & V & L & K). exists v. split; [lia|]. split; assumption. Qed.
Record SI (p0 : Z) (Q : list Z) (s : lift) : Prop := {
  si_primes : l_primes s = Q ++ [p0]; si_mod : l_mod s = prod Q; si_gden : 0 < l_gden s; si_pols : l_pols s <> [];
  si_pi : Forall (PI 0 Q Q p0) (l_pols s); si_ci : Forall (CI (prod Q)) (l_pols s); si_start : Q = [] -> l_lstart s = 0%nat }.
Lemma verif_wcoef_none lo P p0 n l k start p : Forall (PI lo [] P p0) l -> verif_wcoef p n l k start = Some (l, start).
Proof. destruct l as [|g l]; intros H; cbn [verif_wcoef]; [reflexivity|]. inversion H as [|? ? H1 H2]; subst. destruct (Nat.eqb_spec (g_c1 g) 0) as [_|E]; [reflexivity|]. destruct (pi_c1 _ _ _ _ _ H1 E) as [_ N]. congruence. Qed.
Lemma verif_lifted_basis_none lo P p0 l gden p : l <> [] -> Forall (PI lo [] P p0) l -> verif_lifted_basis p l gden = Some (l, gden, true).
Proof.
  intros N H. unfold verif_lifted_basis. destruct (nth_error (rev l) 0) as [e|] eqn:E; [|apply nth_error_None in E; rewrite rev_length in E; destruct l; [congruence|cbn in E; lia]]. cbn [obind]. apply nth_error_In in E. apply in_rev in E. pose proof (proj1 (Forall_forall _ _) H e E) as He. destruct (Nat.eqb_spec (g_c1 e) 0) as [_|K]; [reflexivity|]. destruct (pi_c1 _ _ _ _ _ He K) as [_ C]. congruence.
Qed.
Lemma set_recdata_any ls m : 0 < m -> (m = 1 -> ls = 0%nat) -> exists N1 D1 N2 D2, set_recdata ls m = Some (N1, D1, (N2, D2)) /\ 0 <= N1 /\ 0 <= N2.
Proof. intros H C. destruct (Z.eq_dec m 1) as [->|N]; [rewrite (C eq_refl); cbn; do 4 eexists; split; [reflexivity|lia]|apply set_recdata_ok; lia]. Qed.
Lemma prod_one Q : (forall p, In p Q -> okp p) -> prod Q = 1 -> Q = [].
Proof. intros H E. destruct Q as [|p Q]; [reflexivity|]. pose proof (prod_gt (p :: Q) H ltac:(discriminate)). lia. Qed.
Lemma ratrecon_gb_ok p Q p0 recon s : primes_ok (p :: Q ++ [p0]) -> l_primes s = p :: Q ++ [p0] -> l_mod s = prod Q -> 0 < l_gden s -> l_pols s <> [] ->
  Forall (PI 1 Q (p :: Q) p0) (l_pols s) -> Forall (CI (prod Q)) (l_pols s) -> (Q = [] -> l_lstart s = 0%nat) ->
  exists s', ratrecon_gb recon s = Some s' /\ SI p0 (p :: Q) s' /\ map g_img (l_pols s') = map g_img (l_pols s).
Proof.
  intros OK EP EM HG NP HP HC HS. assert (Hp : okp p) by (apply OK; left; reflexivity). assert (AQ : forall q, In q Q -> okp q) by (intros q Hq; apply OK; right; apply in_or_app; left; exact Hq). pose proof (prod_pos Q AQ) as Hm. pose proof (okp_pos p Hp) as Bp. assert (OK2 : primes_ok (p :: Q)) by (destruct OK as [K1 K2]; split; [intros q [<-|Hq]; [exact Hp|apply AQ; exact Hq]|]; inversion K2 as [|? ? K3 K4]; subst; constructor; [intros I; apply K3; apply in_or_app; left; exact I|exact (NoDup_app1 _ _ K4)]).
  unfold ratrecon_gb. rewrite EP. cbn [hd_error obind]. destruct (Forall_split _ (l_lstart s) _ HP) as [F1 F2]. destruct (verif_wcoef_ok 1 Q p Q p0 (length (l_pols s)) Hp _ (l_lstart s) (l_start s) F2) as (v & st & EV & HV). rewrite EV. cbn [obind fst snd].
  set (ps := firstn (l_lstart s) (l_pols s) ++ v). assert (HPs : PIs 1 Q (p :: Q) p0 (l_pols s) ps) by (unfold ps; rewrite <- (firstn_skipn (l_lstart s) (l_pols s)) at 1; apply PIs_app; [apply PIs_refl; exact F1|exact HV]). assert (Nps : ps <> []) by (apply (same_nil (l_pols s)); [apply HPs|exact NP]).
  destruct (verif_lifted_basis_ok Q p Q p0 ps (l_gden s) Hp Nps HG (proj1 HPs)) as (l2 & gd & b & EW & G2 & H2). rewrite EW. cbn [obind]. set (ls := if b then l_lstart s else first_c2 l2 0 (l_lstart s)). assert (Els : Q = [] -> ls = 0%nat).
  { intros ->. unfold ls. rewrite (verif_lifted_basis_none 1 (p :: []) p0 ps (l_gden s) p Nps (proj1 HPs)) in EW. injection EW as _ _ <-. apply HS. reflexivity. }
  assert (X : exists l3 st3 gd3, (if (ls =? st)%nat then Some (l2, st, gd) else
             let? rd := set_recdata ls (l_mod s) in
             let seg := firstn (st - ls) (skipn ls l2) in
             let? t := lift_loop (p :: Q ++ [p0]) (l_mod s) (fst (fst rd)) (snd (fst rd)) seg ls st gd in
             let '(seg', start', gden') := t in
             Some (firstn ls l2 ++ seg' ++ skipn (Nat.max ls st) l2, start', gden')) = Some (l3, st3, gd3) /\ 0 < gd3 /\ PIs 1 Q (p :: Q) p0 l2 l3).
  { destruct (ls =? st)%nat; [do 3 eexists; split; [reflexivity|]; split; [exact G2|apply PIs_refl; apply H2]|]. rewrite EM. destruct (set_recdata_any ls (prod Q) Hm) as (N1 & D1 & N2 & D2 & -> & B1 & _); [intros E; apply Els; apply (prod_one Q AQ E)|]. cbn [obind fst snd]. cbv zeta.
    destruct (Forall_split _ ls _ (proj1 H2)) as [K1 K2]. destruct (Forall_split _ (st - ls) _ K2) as [K3 _]. destruct (Forall_split _ (Nat.max ls st) _ (proj1 H2)) as [_ K4]. destruct (lift_loop_ok p Q p0 N1 D1 st OK B1 _ ls gd G2 K3) as (seg' & st' & gd' & -> & G3 & HS3). cbn [obind]. do 3 eexists. split; [reflexivity|]. split; [exact G3|]. rewrite (split3 l2 ls st) at 1. apply PIs_app; [apply PIs_refl; exact K1|]. apply PIs_app; [exact HS3|apply PIs_refl; exact K4]. }
  destruct X as (l3 & st3 & gd3 & EX & G3 & H3). cbv zeta in EX |- *. rewrite EX. cbn [obind]. clear EX. pose proof (PIs_trans _ _ _ _ _ _ _ HPs (PIs_trans _ _ _ _ _ _ _ H2 H3)) as HT.
  rewrite EM. destruct (incr_crt_ok 1 Q p Q p0 Hp OK2 l3 (proj1 HT) (same_CI _ _ _ (proj2 HT) HC)) as (l4 & -> & I1 & I2 & I3). cbn [obind]. assert (Hmp : 1 < prod Q * p) by nia. destruct (set_recdata_ok st3 (prod Q * p) Hmp) as (N1 & D1 & N2 & D2 & -> & B1 & B2). cbn [obind fst snd].
  set (gd4 := if (st3 =? 0)%nat then 1 else gd3). assert (G4 : 0 < gd4) by (unfold gd4; destruct (st3 =? 0)%nat; lia). assert (I4 : Forall (PI 0 (p :: Q) (p :: Q) p0) l4) by (apply (Forall_impl _ (fun g => PI_next Q p p0 g)); exact I1).
  assert (Y : exists l5 gd5, (if recon then let? t := rec_loop (prod Q * p) N1 D1 N2 D2 (skipn st3 l4) gd4 in Some (firstn st3 l4 ++ fst t, snd t) else Some (l4, gd4)) = Some (l5, gd5) /\ 0 < gd5 /\ PIs 0 (p :: Q) (p :: Q) p0 l4 l5).
  { destruct recon; [|do 2 eexists; split; [reflexivity|]; split; [exact G4|apply PIs_refl; exact I4]]. destruct (Forall_split _ st3 _ I4) as [K1 K2]. destruct (Forall_split _ st3 _ I3) as [_ K3]. destruct (rec_loop_ok 0 (p :: Q) (p :: Q) p0 _ N1 D1 N2 D2 Hmp B1 B2 ltac:(discriminate) _ gd4 G4 K2 K3) as (l' & gd' & -> & G5 & HH). cbn [obind fst snd]. do 2 eexists. split; [reflexivity|]. split; [exact G5|]. rewrite <- (firstn_skipn st3 l4) at 1. apply PIs_app; [apply PIs_refl; exact K1|exact HH]. }
  destruct Y as (l5 & gd5 & EY & G5 & H5). rewrite EY. cbn [obind fst snd]. eexists. split; [reflexivity|]. split.
  - constructor; cbn.
    + reflexivity.
    + unfold prod. apply Z.mul_comm.
    + exact G5.
    + apply (same_nil l4); [apply H5|]. intros ->. apply (f_equal (@length _)) in I2. rewrite !map_length in I2. destruct l3; [|discriminate]. apply (same_nil _ _ (proj2 HT) NP). reflexivity.
    + apply H5.
    + apply (same_CI _ _ _ (proj2 H5)). fold (prod Q). rewrite Z.mul_comm. exact I3.
    + discriminate.
  - cbn. rewrite (same_map _ _ (proj2 H5)), I2. apply same_map. apply HT.
Qed.
(** ** pushing the images of one more prime *)
Definition image_ok (p : Z) (s : lift) (cs : list (list Z)) : Prop := Forall2 (fun g c => length c = length (g_img g) /\ forall x, In x c -> 0 <= x < p) (l_pols s) cs.
Lemma push_res_ok L p img : (forall r, In r img -> residues L r) -> forall c, length c = length img -> (forall x, In x c -> 0 <= x < p) ->
  exists i, push_res img c = Some i /\ length i = length img /\ (forall r, In r i -> residues (p :: L) r) /\ Forall2 (fun r r' => exists x, r' = x :: r) img i /\ i = map (fun xr => fst xr :: snd xr) (combine c img).
Proof.
  induction img as [|r img IH]; intros R [|x c] E X; cbn in E; try discriminate; cbn [push_res]; [exists []; split; [reflexivity|]; split; [reflexivity|]; split; [intros r []|]; split; [constructor|reflexivity]|]. destruct (IH (fun s Hs => R s (or_intror Hs)) c ltac:(lia) (fun y Hy => X y (or_intror Hy))) as (i & -> & L1 & R1 & F1 & M1). cbn [obind]. eexists. split; [reflexivity|]. split; [cbn; lia|]. split; [|split; [constructor; [exists x; reflexivity|exact F1]|cbn; rewrite M1; reflexivity]].
  intros s [<-|Hs]; [constructor; [apply X; left; reflexivity|apply R; left; reflexivity]|apply R1; exact Hs].
Qed.
Lemma Forall2_push {A} (R R' : A -> list Z -> Prop) q img i : (forall nd r x, R nd r -> R' nd (x :: r)) -> Forall2 R q img -> Forall2 (fun r r' => exists x, r' = x :: r) img i -> Forall2 R' q i.
Proof. intros H F. revert i. induction F; intros i G; inversion G as [|? ? ? ? [z ->] G']; subst; constructor; auto. Qed.
Lemma push_pol_ok Q p p0 g c : PI 0 Q Q p0 g -> length c = length (g_img g) -> (forall x, In x c -> 0 <= x < p) -> exists g', push_pol g c = Some g' /\ PI 1 Q (p :: Q) p0 g' /\ g_crt g' = g_crt g /\ g_img g' = map (fun xr => fst xr :: snd xr) (combine c (g_img g)).
Proof.
  intros [A B C D E] L X. unfold push_pol. destruct (push_res_ok (Q ++ [p0]) p (g_img g) C c L X) as (i & -> & Li & Ri & Fi & Mi). cbn [obind]. eexists. split; [reflexivity|]. split; [|split; [reflexivity|exact Mi]]. constructor; cbn.
  - lia.
  - lia.
  - exact Ri.
  - exact D.
  - intros H. destruct (E H) as (v & _ & (L1 & L2 & L3) & K). exists (S v). split; [lia|]. split.
    + split; [exact L1|]. split; [cbn; lia|]. cbn. refine (Forall2_push _ _ _ _ _ _ L3 Fi). intros nd r x [H1 H2]. split; [exact H1|]. intros y q Hy. cbn [combine skipn] in Hy. apply (H2 y q Hy).
    + intros H2. destruct (K H2) as (j & Hj & q & Eq & F). exists (S j). split; [lia|]. exists q. split; [exact Eq|]. cbn. refine (Forall2_push _ _ _ _ _ _ F Fi). intros nd r x (y & Ey & Hy). exists y. split; [exact Ey|exact Hy].
Qed.
Lemma push_pols_ok Q p p0 l : Forall (PI 0 Q Q p0) l -> forall cs, Forall2 (fun g c => length c = length (g_img g) /\ forall x, In x c -> 0 <= x < p) l cs ->
  exists l', push_pols l cs = Some l' /\ Forall (PI 1 Q (p :: Q) p0) l' /\ map g_crt l' = map g_crt l /\ map g_img l' = map (fun ci => map (fun xr => fst xr :: snd xr) (combine (fst ci) (snd ci))) (combine cs (map g_img l)).
Proof.
  induction l as [|g l IH]; intros H cs F; inversion F as [|? c ? cs' [F1 F2] F3]; subst; cbn [push_pols]; [exists []; split; [reflexivity|]; split; [constructor|]; split; reflexivity|]. inversion H as [|? ? H1 H2]; subst. destruct (push_pol_ok Q p p0 g c H1 F1 F2) as (g' & -> & P1 & P2 & P3). cbn [obind]. destruct (IH H2 cs' F3) as (l' & -> & Q1 & Q2 & Q3). cbn [obind]. eexists. split; [reflexivity|]. split; [constructor; assumption|]. split; [cbn; rewrite P2, Q2; reflexivity|cbn; rewrite P3, Q3; reflexivity].
Qed.
Lemma crt_CI m l l' : map g_crt l' = map g_crt l -> Forall (CI m) l -> Forall (CI m) l'.
Proof. revert l'. induction l as [|g l IH]; intros [|g' l'] E H; try discriminate; constructor; inversion H; subst; injection E as E1 E2; [unfold CI in *; rewrite E1; assumption|apply IH; assumption]. Qed.
Definition push_imgs (cs : list (list Z)) (im : list (list (list Z))) : list (list (list Z)) := map (fun ci => map (fun xr => fst xr :: snd xr) (combine (fst ci) (snd ci))) (combine cs im).
Lemma round_ok p0 Q s i cs : i_img i = Some cs -> primes_ok (i_prime i :: Q ++ [p0]) -> SI p0 Q s -> image_ok (i_prime i) s cs -> exists s', round i s = Some s' /\ SI p0 (i_prime i :: Q) s' /\ map g_img (l_pols s') = push_imgs cs (map g_img (l_pols s)).
Proof.
  intros EI OK [S1 S2 S3 S4 S5 S6 S7] IM. unfold round. rewrite EI. destruct (push_pols_ok Q (i_prime i) p0 _ S5 cs IM) as (l' & -> & P1 & P2 & P3). cbn [obind]. edestruct (ratrecon_gb_ok (i_prime i) Q p0 (i_recon i)) as (s' & E & SI' & M); [exact OK| | | | | | | |exists s'; split; [exact E|]; split; [exact SI'|]; rewrite M; cbn; exact P3]; cbn; auto.
  - rewrite S1. reflexivity.
  - intros ->. apply (f_equal (@length _)) in P2. cbn in P2. rewrite map_length in P2. destruct (l_pols s); [congruence|discriminate].
  - apply (crt_CI _ _ _ P2 S6).
Qed.
