(** C90: degrees and homogeneity of the input. *)
From Coq Require Import Arith List Bool Lia.
From Verif Require Import HomModel.
Import ListNotations.

(** Specification: the degree of a monomial is the sum of its exponents; all terms of a homogeneous polynomial have the same degree. *)
Fixpoint sum (e : list nat) : nat := match e with [] => 0 | x :: r => x + sum r end.
Definition terms (q : pol) : list (list nat) := fst q :: snd q.
Definition homogeneous (q : pol) : Prop := exists d, forall t, In t (terms q) -> sum t = d.
Definition degree_of (q : pol) (d : nat) : Prop := (exists t, In t (terms q) /\ sum t = d) /\ forall t, In t (terms q) -> sum t <= d.

Lemma mdeg_sum nev e : mdeg nev e = sum e.
Proof.
  assert (T : forall l, total l = sum l) by (induction l; cbn; auto). unfold mdeg. destruct (nev =? 0); [apply T|]. rewrite !T.
  assert (S : forall a b, sum (a ++ b) = sum a + sum b) by (induction a; intros; cbn; [reflexivity|rewrite IHa; lia]). rewrite <- S, firstn_skipn. reflexivity.
Qed.

Lemma deg_loop_spec nev : forall ts deg hom, let q := deg_loop nev deg hom ts in
  deg <= fst q /\ (forall t, In t ts -> sum t <= fst q) /\ (fst q = deg \/ exists t, In t ts /\ sum t = fst q) /\
  (snd q = true <-> hom = true \/ exists t, In t ts /\ deg < sum t).
Proof.
  induction ts as [|t ts IH]; intros deg hom; cbv zeta; cbn [deg_loop].
  - cbn [fst snd]. split; [lia|]. split; [intros t []|]. split; [auto|]. split; [auto|]. intros [H|(t & [] & _)]. exact H.
  - rewrite mdeg_sum. destruct (Nat.ltb_spec deg (sum t)) as [H|H].
    + destruct (IH (sum t) true) as (A1 & A2 & A3 & A4). split; [lia|]. split; [intros u [<-|Hu]; [lia|auto]|]. split.
      * right. destruct A3 as [->|(u & Hu & Eu)]; [exists t; split; [left|]; reflexivity|exists u; split; [right|]; auto].
      * split; [intros _; right; exists t; split; [left; reflexivity|exact H]|]. intros _. apply A4. left. reflexivity.
    + destruct (IH deg hom) as (A1 & A2 & A3 & A4). split; [lia|]. split; [intros u [<-|Hu]; [lia|auto]|]. split.
      * destruct A3 as [->|(u & Hu & Eu)]; [auto|right; exists u; split; [right|]; auto].
      * rewrite A4. split; (intros [E|(u & Hu & Eu)]; [auto|right]); [exists u; split; [right|]; auto|]. destruct Hu as [<-|Hu]; [lia|exists u; auto].
Qed.

Lemma check_spec nev : forall ps, check nev ps = true <-> Forall homogeneous ps.
Proof.
  induction ps as [|[l ts] ps IH]; cbn [check]; [split; auto|].
  assert (E : existsb (fun t => negb (mdeg nev l =? mdeg nev t)) ts = false <-> homogeneous (l, ts)).
  { unfold homogeneous, terms. cbn [fst snd]. split.
    - intros E. exists (sum l). intros t [<-|Ht]; [reflexivity|]. destruct (Nat.eq_dec (sum l) (sum t)) as [X|X]; [auto|]. exfalso.
      assert (existsb (fun t => negb (mdeg nev l =? mdeg nev t)) ts = true); [|congruence]. apply existsb_exists. exists t. split; [exact Ht|]. rewrite !mdeg_sum. apply negb_true_iff, Nat.eqb_neq. exact X.
    - intros [d Hd]. apply not_true_iff_false. intros X. apply existsb_exists in X. destruct X as (t & Ht & X). rewrite !mdeg_sum in X. apply negb_true_iff, Nat.eqb_neq in X.
      apply X. rewrite (Hd l), (Hd t); [reflexivity|right; exact Ht|left; reflexivity]. }
  destruct (existsb _ ts).
  - split; [discriminate|]. intros H. inversion H as [|? ? H1 H2]; subst. apply E in H1. discriminate.
  - rewrite IH. split; [intros H; constructor; [apply E; reflexivity|exact H]|]. intros H. inversion H; subst. assumption.
Qed.

Lemma degrees_flag nev : forall ps hom, snd (degrees nev hom ps) = true <-> hom = true \/ (0 < nev /\ exists q t, In q ps /\ In t (snd q) /\ sum (fst q) < sum t).
Proof.
  induction ps as [|[l ts] ps IH]; intros hom; cbn [degrees].
  - cbn [snd]. split; [auto|]. intros [H|(_ & q & t & [] & _)]. exact H.
  - destruct (Nat.eqb_spec nev 0) as [E|E]; cbn [snd]; rewrite IH.
    + split; (intros [H|(H & _)]; [auto|lia]).
    + rewrite mdeg_sum. destruct (deg_loop_spec nev ts (sum l) hom) as (_ & _ & _ & A). rewrite A. split.
      * intros [[H|(t & Ht & Hl)]|(_ & q & t & Hq & Ht & Hl)]; [auto| |]; right; (split; [lia|]); [exists (l, ts), t|exists q, t]; repeat split; auto; [left; reflexivity|right; exact Hq].
      * intros [H|(_ & q & t & [<-|Hq] & Ht & Hl)]; [auto|left; right; exists t; auto|right; split; [lia|]; exists q, t; auto].
Qed.

(** Without an elimination order the flag says whether all generators are homogeneous. *)
Theorem C90_homogeneous : forall ps, snd (import_degrees 0 false ps) = true <-> Forall homogeneous ps.
Proof.
  intros ps. unfold import_degrees. cbv zeta. cbn [snd]. rewrite <- (check_spec 0). destruct (snd (degrees 0 false ps)) eqn:E; [|reflexivity].
  apply degrees_flag in E. destruct E as [E|[E _]]; [discriminate|lia].
Qed.
Print Assumptions C90_homogeneous.

(** With one it is also raised by any term of larger degree than the leading one. *)
Theorem C90_elimination : forall nev ps, 0 < nev -> snd (import_degrees nev false ps) = true <->
  Forall homogeneous ps \/ exists q t, In q ps /\ In t (snd q) /\ sum (fst q) < sum t.
Proof.
  intros nev ps Hn. unfold import_degrees. cbv zeta. cbn [snd]. pose proof (degrees_flag nev ps false) as D. rewrite <- (check_spec nev). destruct (snd (degrees nev false ps)).
  - split; [intros _|auto]. destruct (proj1 D eq_refl) as [X|[_ X]]; [discriminate|right; exact X].
  - split; [auto|]. intros [H|H]; [exact H|]. exfalso. assert (false = true); [|discriminate]. apply D. right. split; [exact Hn|exact H].
Qed.
Print Assumptions C90_elimination.

(** So with an elimination order it is wrong for every system with such a term. *)
Theorem C90_elimination_refuted : forall nev ps q t, 0 < nev -> In q ps -> In t (snd q) -> sum (fst q) < sum t ->
  snd (import_degrees nev false ps) = true /\ ~ Forall homogeneous ps.
Proof.
  intros nev ps q t Hn Hq Ht Hl. split; [apply C90_elimination; [exact Hn|right; exists q, t; auto]|]. intros H. rewrite Forall_forall in H. destruct (H q Hq) as [d Hd].
  unfold terms in Hd. rewrite (Hd (fst q)), (Hd t) in Hl; [lia|right; exact Ht|left; reflexivity].
Qed.
Print Assumptions C90_elimination_refuted.

(** The flag is never taken back when more generators are imported. *)
Theorem C90_again : forall nev ps, snd (import_degrees nev true ps) = true.
Proof.
  intros nev ps. unfold import_degrees. cbv zeta. cbn [snd]. assert (E : snd (degrees nev true ps) = true) by (apply degrees_flag; auto). rewrite E. reflexivity.
Qed.
Print Assumptions C90_again.

(** The degrees stored with the generators: those of the polynomials for an elimination order, and also without if no term has a larger degree than
    the leading one, as in the graded order. *)
Theorem C90_degrees : forall nev hom ps, 0 < nev \/ (forall q t, In q ps -> In t (snd q) -> sum t <= sum (fst q)) ->
  Forall2 degree_of ps (fst (import_degrees nev hom ps)).
Proof.
  intros nev hom ps. unfold import_degrees. cbv zeta. cbn [fst]. revert hom. induction ps as [|[l ts] ps IH]; intros hom H; cbn [degrees]; [constructor|].
  destruct (Nat.eqb_spec nev 0) as [E|E]; cbn [fst].
  - destruct H as [H|H]; [lia|]. constructor; [|apply IH; right; intros q t Hq; apply H; right; exact Hq]. rewrite mdeg_sum. unfold degree_of, terms. cbn [fst snd].
    split; [exists l; split; [left|]; reflexivity|]. intros t [<-|Ht]; [lia|]. apply (H (l, ts) t); [left; reflexivity|exact Ht].
  - constructor; [|apply IH; left; lia]. rewrite mdeg_sum. destruct (deg_loop_spec nev ts (sum l) hom) as (A1 & A2 & A3 & _). unfold degree_of, terms. cbn [fst snd]. split.
    + destruct A3 as [->|(t & Ht & Et)]; [exists l; split; [left|]; reflexivity|exists t; split; [right|]; auto].
    + intros t [<-|Ht]; [exact A1|apply A2, Ht].
Qed.
Print Assumptions C90_degrees.

(** x - y^2 and x + y in the variables x, y: with x eliminated the leading term is x; the degrees are 2 and 1, and the flag is raised. *)
Example C90_elimination_ex : import_degrees 1 false [([1; 0], [[0; 2]]); ([1; 0], [[0; 1]])] = ([2; 1], true).
Proof. reflexivity. Qed.
Example C90_homogeneous_ex : import_degrees 0 false [([0; 2], [[1; 0]]); ([1; 0], [[0; 1]])] = ([2; 1], false) /\ import_degrees 0 false [([2; 0], [[1; 1]; [0; 2]]); ([1; 0], [[0; 1]])] = ([2; 1], true).
Proof. split; reflexivity. Qed.
