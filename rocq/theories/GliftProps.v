(** C62: the lifting of a Groebner basis over Q (src/msolve/lifting-gb.c). *)
From Coq Require Import ZArith Znumtheory Arith List Bool Lia.
From Verif Require Import ModInvModel CrtModel GliftSpec GliftModel GliftProofs GliftRun.
Import ListNotations.
Open Scope Z_scope.

(** Images of one basis: same shape, residues in range, different word-size primes *)
Definition images_ok (p0 : Z) (cs0 : list (list Z)) (ins : list input) : Prop :=
  cs0 <> [] /\ (forall c, In c cs0 -> c <> []) /\ in_range (p0, cs0) /\ (forall im, In im (goods ins) -> shaped cs0 (snd im) /\ in_range im) /\ good_primes (map fst (goods ins) ++ [p0]).

(** No division by zero, no missing residue, whatever the images and the decisions not to reconstruct *)
Theorem C62_total p0 cs0 ins : images_ok p0 cs0 ins -> exists s b, lift_all ins (init_lift p0 cs0) = Some (s, b).
Proof.
  intros (H1 & H2 & H3 & H4 & H5). destruct (lift_all_ok p0 cs0 ins [] (init_lift p0 cs0) H4 H5 (init_Inv p0 cs0 H1 H2 H3)) as (s & b & _ & E & _). exists s, b. exact E.
Qed.
Print Assumptions C62_total.

(** What success says: one positive leading coefficient per polynomial and integer coefficients which agree with all the images of an initial
    part U of the primes, and with the image of a later prime q that was not used to compute them *)
Theorem C62_sound p0 cs0 ins s : images_ok p0 cs0 ins -> lift_all ins (init_lift p0 cs0) = Some (s, true) -> length (l_pols s) = length cs0 /\
  forall k g, nth_error (l_pols s) k = Some g -> exists U V rest q, goods ins = U ++ V ++ rest /\ U <> [] /\ In q V /\ 0 < g_lm g /\ length (g_qq g) = length (nth k cs0 []) /\
    forall c n d, nth_error (g_qq g) c = Some (n, d) ->
      d = 1 /\ (forall im, In im U -> agrees (g_lm g) n k c im) /\ ((~ (fst q | g_lm g) /\ agrees (g_lm g) n k c q) \/ ((fst q | g_lm g) /\ cf k c q = 0)).
Proof.
  intros (H1 & H2 & H3 & H4 & H5) HE. destruct (lift_all_ok p0 cs0 ins [] (init_lift p0 cs0) H4 H5 (init_Inv p0 cs0 H1 H2 H3)) as (s' & b & G & E & (rest & R) & HV & F). rewrite HE in E. injection E as <- <-. split.
  - destruct HV as [_ M]. apply (f_equal (@length _)) in M. unfold imgs_of in M. rewrite !map_length, seq_length in M. exact M.
  - intros k g Hk. destruct (final p0 cs0 G s k g HV (F eq_refl) Hk) as (U & V & q & -> & A1 & A2 & A3 & A4 & A5). exists U, V, rest, q. cbn [app] in R. rewrite <- app_assoc in R. split; [exact R|]. split; [exact A1|]. split; [exact A2|]. split; [exact A3|]. split; [exact A4|exact A5].
Qed.
Print Assumptions C62_sound.

Lemma divide_prod (L : list Z) x : primes_ok L -> (forall p, In p L -> (p | x)) -> (prod L | x).
Proof.
  induction L as [|p L IH]; intros OK HD; cbn [prod fold_right]; [apply Z.divide_1_l|]. destruct (HD p (or_introl eq_refl)) as [y Hy]. assert (OK' : primes_ok L) by (destruct OK as [A N]; apply NoDup_cons_iff in N as [_ N]; split; [intros q Hq; apply A; right; exact Hq|exact N]). pose proof (IH OK' (fun q Hq => HD q (or_intror Hq))) as D. fold (prod L).
  assert (D2 : (prod L | y)) by (apply (Z.gauss (prod L) p); [rewrite Z.mul_comm, <- Hy; exact D|apply prod_coprime; exact OK]). destruct D2 as [z Hz]. exists z. rewrite Hy, Hz. ring.
Qed.
Lemma NoDup_pre {A} (l w : list A) : NoDup (l ++ w) -> NoDup l.
Proof. induction l as [|a l IH]; intros N; [constructor|]. cbn in N. apply NoDup_cons_iff in N as [N1 N2]. constructor; [intros Hi; apply N1; apply in_or_app; left; exact Hi|apply IH; exact N2]. Qed.
Lemma sub_primes (U V : list image) p0 : good_primes (map fst (U ++ V) ++ [p0]) -> primes_ok (map fst U).
Proof.
  rewrite map_app, <- app_assoc. intros [N A]. split; [intros p Hp; apply A; apply in_or_app; left; exact Hp|]. apply (NoDup_pre _ _ N).
Qed.
(** When the images are those of rational coefficients a / b, the lifted coefficient is a / b as soon as its height and that of a / b are
    small against the product of the primes used *)
Theorem C62_exact p0 cs0 ins s (a b : nat -> nat -> Z) : images_ok p0 cs0 ins -> lift_all ins (init_lift p0 cs0) = Some (s, true) ->
  (forall k c im, In im (goods ins) -> (fst im | b k c * cf k c im - a k c)) ->
  forall k g, nth_error (l_pols s) k = Some g -> exists U rest, goods ins = U ++ rest /\ U <> [] /\
    forall c n d, nth_error (g_qq g) c = Some (n, d) -> Z.abs (g_lm g * a k c - n * b k c) < product U -> d = 1 /\ g_lm g * a k c = n * b k c.
Proof.
  intros OK HE HI k g Hk. destruct (C62_sound p0 cs0 ins s OK HE) as [_ H]. destruct (H k g Hk) as (U & V & rest & q & HG & HU & _ & _ & _ & HC). exists U, (V ++ rest). split; [exact HG|]. split; [exact HU|]. intros c n d Hc HB. destruct (HC c n d Hc) as (D1 & HA & _). split; [exact D1|].
  assert (PK : primes_ok (map fst U)) by (destruct OK as (_ & _ & _ & _ & GP); rewrite HG in GP; apply sub_primes in GP; exact GP).
  assert (D : (prod (map fst U) | g_lm g * a k c - n * b k c)).
  { apply divide_prod; [exact PK|]. intros p Hp. apply in_map_iff in Hp as (im & <- & Him). pose proof (HA im Him) as X. assert (Him2 : In im (goods ins)) by (rewrite HG; apply in_or_app; left; exact Him). pose proof (HI k c im Him2) as Y. unfold agrees in X.
    replace (g_lm g * a k c - n * b k c) with (b k c * (g_lm g * cf k c im - n) - g_lm g * (b k c * cf k c im - a k c)) by ring. apply Z.divide_sub_r; apply Z.divide_mul_r; assumption. }
  unfold product in HB. change (fold_right Z.mul 1 (map fst U)) with (prod (map fst U)) in HB. destruct D as [z Hz]. assert (0 < prod (map fst U)) by (apply prod_pos; apply PK). assert (z = 0) by nia. subst z. lia.
Qed.
Print Assumptions C62_exact.

(** x^2 + (3/7) y - 5/2 and y^3 + 4 y^2 + 1/3, learning prime 101: lifted with four more primes *)
Definition ex_in p cs := {| i_prime := p; i_img := Some cs; i_recon := true |}.
Definition ex_ins : list input :=
  [ex_in 103 [[74; 49]; [4; 0; 69]]; {| i_prime := 7; i_img := None; i_recon := true |}; ex_in 107 [[31; 51]; [4; 0; 36]]; ex_in 109 [[16; 52]; [4; 0; 73]]; ex_in 113 [[65; 54]; [4; 0; 38]]; ex_in 127 [[73; 61]; [4; 0; 85]]].
Definition ex0 : list (list Z) := [[87; 48]; [4; 0; 34]].
Lemma small_prime p : 1 < p -> (forallb (fun d => negb (p mod (Z.of_nat d) =? 0)) (seq 2 (Z.to_nat p - 2))) = true -> prime p.
Proof.
  intros H F. apply prime_alt. split; [exact H|]. intros n Hn D. rewrite forallb_forall in F. specialize (F (Z.to_nat n)). rewrite in_seq in F. assert (G : (2 <= Z.to_nat n < 2 + (Z.to_nat p - 2))%nat) by lia. specialize (F G). rewrite Z2Nat.id in F by lia. apply Znumtheory.Zdivide_mod in D. rewrite D in F. discriminate.
Qed.
Ltac rng := intros c Hc x Hx; cbn in Hc; repeat (destruct Hc as [<-|Hc]); try contradiction; cbn in Hx; repeat (destruct Hx as [<-|Hx]); try contradiction; cbn; lia.
Example C62_ex_ok : images_ok 101 ex0 ex_ins.
Proof.
  split; [discriminate|]. split; [intros c Hc; cbn in Hc; repeat (destruct Hc as [<-|Hc]); try contradiction; discriminate|]. split; [rng|]. split.
  - intros im Him. cbn in Him. repeat (destruct Him as [<-|Him]; [split; [split; [reflexivity|intros [|[|[|k]]]; reflexivity]|rng]|]). contradiction.
  - split; [cbn; repeat constructor; cbn; intuition discriminate|]. intros p Hp. cbn in Hp. repeat (destruct Hp as [<-|Hp]; [split; [apply small_prime; [lia|reflexivity]|lia]|]). contradiction.
Qed.
Example C62_ex_run : exists s, lift_all ex_ins (init_lift 101 ex0) = Some (s, true) /\ map (fun g => (g_lm g, g_qq g)) (l_pols s) = [(14, [(6, 1); (-35, 1)]); (3, [(12, 1); (0, 1); (1, 1)])].
Proof. vm_compute. eexists. split; reflexivity. Qed.
(** the bound matters: the images of the coefficient 3 + 101*103*107*109*113*127 are lifted to 3 *)
Definition ex_big : list input := map (fun p => ex_in p [[3]]) [103; 107; 109; 113; 127].
Example C62_bound_needed : exists s, lift_all ex_big (init_lift 101 [[3]]) = Some (s, true) /\ map (fun g => (g_lm g, g_qq g)) (l_pols s) = [(1, [(3, 1)])] /\
  forall im, In im ((101, [[3]]) :: goods ex_big) -> (fst im | 1 * cf 0 0 im - (3 + 101 * 103 * 107 * 109 * 113 * 127)).
Proof.
  assert (E : match lift_all ex_big (init_lift 101 [[3]]) with Some (s, true) => map (fun g => (g_lm g, g_qq g)) (l_pols s) = [(1, [(3, 1)])] | _ => False end) by (vm_compute; reflexivity).
  destruct (lift_all ex_big (init_lift 101 [[3]])) as [[s [|]]|]; try contradiction. exists s. split; [reflexivity|]. split; [exact E|]. intros im Him. cbn in Him. repeat (destruct Him as [<-|Him]; [apply Z.mod_divide; [discriminate|reflexivity]|]). contradiction.
Qed.
