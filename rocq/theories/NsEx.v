(** Functions meeting the contracts of C77: the extended Euclidean algorithm, and the squarefree part by trial division. *)
From Coq Require Import ZArith NArith Arith List Bool Lia Znumtheory Setoid Morphisms Ring.
From Verif Require Import LinSpec MonoSpec GbSpec FpSpec FglmSpec ModInvModel NmodModel FpProofs BmModel BmProps FglmModel FglmProps FglmExample RexFp NsSpec.
Import ListNotations.
Open Scope Z_scope.

Fixpoint xg_loop (fuel : nat) (p : Z) (a b sa ta sb tb : list Z) : list Z * list Z * list Z :=
  match fuel with
  | O => (a, sa, ta)
  | S f =>
      match b with
      | [] => (a, sa, ta)
      | _ => match ndivrem p a b with None => (a, sa, ta) | Some (q, r) => xg_loop f p b r sb tb (nsub p sa (pmul q sb)) (nsub p ta (pmul q tb)) end
      end
  end.
Definition ns_xg (p : Z) (a b : list Z) : list Z * list Z * list Z :=
  let '(g, s, t) := xg_loop (S (length b)) p a b [1] [] [] [1] in let i := zinv p (last g 0) in (nscal p i g, nscal p i s, nscal p i t).
Definition ns_factor (p : Z) (f : list Z) : option (list Z) :=
  find (fun h => ex_divides p (nmul p h h) f) (flat_map (fun d => map (fun g => g ++ [1]) (all_lists p d)) (seq 1 ((length f - 1) / 2))).
Fixpoint ns_part (fuel : nat) (p : Z) (f : list Z) : list Z :=
  match fuel with O => f | S k => match ns_factor p f with Some h => match ndivrem p f h with Some (q, _) => ns_part k p q | None => f end | None => f end end.
Definition ns_sqpart (p : Z) (f : list Z) : list Z := ns_part (length f) p f.
Definition ns_sqf (p : Z) (f : list Z) : bool := match ns_factor p f with Some _ => false | None => true end.

Section Contracts.
Variable p : Z.
Hypothesis Hp : prime p.
Notation "a == b" := (FpSpec.peq p a b) (at level 70).
Add Ring pr_nsex : (pring p) (setoid (peq_eq p) (prext p)).
Lemma xg_loop_ok a0 b0 : forall fuel a b sa ta sb tb, nf p a -> nf p b -> nf p ta -> nf p tb -> ~ a == [] -> (length b < fuel)%nat ->
  a == padd (pmul sa a0) (pmul ta b0) -> b == padd (pmul sb a0) (pmul tb b0) ->
  (forall g, pdvd p g a -> pdvd p g b -> pdvd p g a0 /\ pdvd p g b0) ->
  let '(g, s, t) := xg_loop fuel p a b sa ta sb tb in nf p g /\ ~ g == [] /\ nf p t /\ g == padd (pmul s a0) (pmul t b0) /\ pdvd p g a0 /\ pdvd p g b0.
Proof.
  induction fuel as [|f IH]; intros a b sa ta sb tb Na Nb Nta Ntb NZ LF Ea Eb CD; [lia|]. cbn [xg_loop]. destruct b as [|x b].
  - split; [exact Na|]. split; [exact NZ|]. split; [exact Nta|]. split; [exact Ea|]. apply CD; [apply pdvd_refl|]. exists []. reflexivity.
  - set (b' := x :: b) in *. assert (Db : hdeg p b' (length b)) by (apply (nf_hdeg p Hp); [exact Nb|reflexivity]). destruct (ndivrem_ok p Hp a b' (length b) Na Nb Db) as (q & r & Eq & EQ & Dr & Nq & Nr). rewrite Eq. apply IH; try assumption.
    + apply (nf_norm p Hp).
    + apply (hdeg_nz p _ _ Db).
    + apply (nf_dlt p Hp) in Dr; [|exact Nr]. unfold b' in LF. cbn [length] in LF. lia.
    + rewrite (nsub_peq p Hp), (nsub_peq p Hp). assert (Er : r == psub a (pmul q b')) by (rewrite EQ; ring). rewrite Er, Ea. rewrite Eb at 1. ring.
    + intros g G1 G2. apply CD; [|exact G1]. apply (pdvd_ext p g _ _ (symmetry EQ)). apply (pdvd_add p); [apply (pdvd_mul p); exact G1|exact G2].
Qed.
Lemma ns_xg_ok : xgcd_contract p (ns_xg p).
Proof.
  intros a b n Ma Rb Lb. destruct (nf_of_monic p Hp _ _ Ma) as [Na Da]. pose proof (p2 p Hp) as P2. assert (Nb : nf p b) by (apply (nf_intro p); assumption).
  pose proof (xg_loop_ok a b (S (length b)) a b [1] [] [] [1] Na Nb) as K. unfold ns_xg. destruct (xg_loop _ p a b [1] [] [] [1]) as [[g s] t].
  destruct K as (Ng & NZ & Nt & Eg & G1 & G2); [apply nf_nil| |apply (hdeg_nz p _ _ Da)|lia|ring|ring|intros g' A B; split; assumption|].
  { apply (nf_intro p); [intros c [<-|[]]; lia|discriminate]. }
  destruct (deg_cases p Hp g) as [Z0|(k & Dg)]; [contradiction|]. destruct (nmonic_ok p Hp g k Ng Dg) as (h & Eh & Nh & Eh' & _ & Dh & Th & Lh).
  assert (L : last g 0 = pc g k) by (rewrite last_nth, (nf_len p Hp g k Ng Dg); f_equal; lia). assert (HH : nscal p (zinv p (last g 0)) g = h). { unfold nmonic in Eh. destruct g; [discriminate Eh|]. injection Eh as <-. reflexivity. }
  rewrite HH. set (z := zinv p (last g 0)) in *. assert (Ez : h == pmul [z] g). { rewrite <- HH. rewrite (nscal_peq p Hp). apply pscal_pmul. }
  split; [exists k; split; [exact Lh|split; [exact Th|apply (nf_range p Hp); exact Nh]]|]. split; [apply (nf_range p Hp); apply (nf_norm p Hp)|]. split; [apply (nf_last p Hp); apply (nf_norm p Hp)|]. split.
  - rewrite (nscal_peq p Hp), (nscal_peq p Hp), !(pscal_pmul p), Ez, Eg. ring.
  - assert (HG : pdvd p h g). { destruct (unit_const p Hp [z]) as (u & Eu). { apply (hdeg_const p). intros E0. pose proof (hdeg_nz p _ _ Dh) as X0. apply X0. rewrite Ez. apply pmul_zero_l. intros [|i]; [cbn; exact E0|cbn; destruct i; reflexivity]. }
      exists [u]. rewrite Ez. transitivity (pmul (pmul [u] [z]) g); [|ring]. rewrite <- (pscal_pmul p u), Eu. ring. }
    split; eapply (pdvd_trans p); [exact HG|exact G1|exact HG|exact G2].
Qed.
Lemma ns_factor_some f k h : monic_of_degree p f k -> ns_factor p f = Some h -> exists d, monic_of_degree p h (S d) /\ pdvd p (pmul h h) f.
Proof.
  intros Mf H. pose proof (p2 p Hp) as P2. destruct (nf_of_monic p Hp _ _ Mf) as [Nf Df]. apply find_some in H as [Hi Hd]. apply in_flat_map in Hi as (d & Hd0%in_seq & Hi). apply in_map_iff in Hi as (g & <- & Hg). apply (all_lists_in p ltac:(lia)) in Hg as [Lg Rg].
  assert (M : monic_of_degree p (g ++ [1]) d). { split; [rewrite app_length; cbn [length]; lia|]. split; [rewrite app_nth2 by lia; rewrite Lg, Nat.sub_diag; reflexivity|]. intros c Hc. apply in_app_or in Hc as [Hc|[<-|[]]]; [apply Rg; exact Hc|lia]. }
  destruct (nf_of_monic p Hp _ _ M) as [NM DM]. destruct d as [|d]; [lia|]. exists d. split; [exact M|].
  assert (D2 : hdeg p (nmul p (g ++ [1]) (g ++ [1])) (S d + S d)) by (apply (hdeg_ext p (pmul (g ++ [1]) (g ++ [1]))); [symmetry; apply (nmul_peq p Hp)|apply (hdeg_mul p Hp); exact DM]).
  apply (ex_divides_ok p _ _ _ Hp (nf_norm p Hp _) Nf D2) in Hd as [c Ec]. exists c. rewrite Ec. rewrite (norm_peq p Hp (pmul (g ++ [1]) (g ++ [1]))). reflexivity.
Qed.
Lemma ns_factor_none f k : monic_of_degree p f k -> ns_factor p f = None -> squarefree p f.
Proof.
  intros Mf H. apply (ex_sqf_ok p f k Hp Mf). unfold ex_sqf. apply forallb_forall. intros d Hd. apply forallb_forall. intros g Hg. apply negb_true_iff. refine (find_none _ _ H (g ++ [1]) _). apply in_flat_map. exists d. split; [exact Hd|]. exact (in_map (fun g => g ++ [1]) _ _ Hg).
Qed.
Lemma ppow_add a m : forall k, pmul (ppow a m) (ppow a k) == ppow a (m + k).
Proof. induction m as [|m IH]; intros k; cbn [ppow Nat.add]; [ring|]. rewrite <- IH. ring. Qed.
Lemma ns_part_ok : forall fuel f k, monic_of_degree p f (S k) -> (k < fuel)%nat -> exists Q j, monic_of_degree p (ns_part fuel p f) (S j) /\ squarefree_part p f Q (ns_part fuel p f).
Proof.
  induction fuel as [|fu IH]; intros f k Mf Hk; [lia|]. destruct (nf_of_monic p Hp _ _ Mf) as [Nf Df]. cbn [ns_part]. destruct (ns_factor p f) as [h|] eqn:EF.
  2: { exists [1], k. split; [exact Mf|]. split; [ring|]. split; [apply (ns_factor_none f (S k) Mf EF)|]. exists 1%nat. cbn [ppow]. exists [1]. ring. }
  destruct (ns_factor_some f (S k) h Mf EF) as (d & Mh & c & Ec). destruct (nf_of_monic p Hp _ _ Mh) as [Nh Dh]. destruct (ndivrem_ok p Hp f h (S d) Nf Nh Dh) as (q & r & -> & EQ & Dr & Nq & Nr).
  assert (Eq : q == pmul c h /\ r == []). { apply (div_unique p Hp q (pmul c h) h (S d) r []); [exact Dh|exact Dr|apply dlt_nil|]. rewrite <- EQ, Ec. ring. } destruct Eq as [Eq Er].
  assert (EF2 : f == pmul q h) by (rewrite EQ, Er; ring). assert (Dq0 : hdeg p (pmul q h) (S k)) by (apply (hdeg_ext p f); assumption). apply (hdeg_factor p Hp) in Dq0 as (i & j & Dq & Dj & Eij). pose proof (hdeg_uniq p _ _ _ Dj Dh) as ->.
  assert (Dc : hdeg p (pmul c h) i) by (apply (hdeg_ext p q); assumption). apply (hdeg_factor p Hp) in Dc as (i' & j' & Dc & Dj' & Ei). pose proof (hdeg_uniq p _ _ _ Dj' Dh) as ->. destruct i as [|i]; [lia|].
  assert (Mq : monic_of_degree p q (S i)).
  { split; [apply (nf_len p Hp); assumption|]. split; [|apply (nf_range p Hp); exact Nq]. destruct (pmul_top p q h (S i) (S d) (hdeg_dlt p _ _ Dq) (hdeg_dlt p _ _ Dh)) as [_ T]. destruct Mh as (_ & Th & _). destruct Mf as (_ & Tf & _). change (nth (S d) h 0) with (pc h (S d)) in Th. change (nth (S k) f 0) with (pc f (S k)) in Tf. rewrite Th, Z.mul_1_r, Eij in T. rewrite <- (EF2 (S k)), Tf in T.
    change (nth (S i) q 0) with (pc q (S i)). pose proof (nf_pc p Hp q (S i) Nq) as R. pose proof (p2 p Hp). destruct T as [z T]. assert (z <= -1 \/ z = 0 \/ 1 <= z) as [?|[?|?]] by lia; [nia|subst z; lia|nia]. }
  destruct (IH q i Mq ltac:(lia)) as (Q' & j'' & ME & EQ' & SF & e & DV). exists (pmul h Q'), j''. split; [exact ME|]. split; [rewrite EF2, EQ' at 1; ring|]. split; [exact SF|].
  exists (e + e)%nat. apply (pdvd_trans p _ (pmul q q)).
  - exists c. rewrite EF2, Eq. ring.
  - destruct DV as [x Ex]. exists (pmul x x). rewrite <- ppow_add, Ex. ring.
Qed.
Lemma ns_sqpart_ok : part_contract p (ns_sqpart p).
Proof. intros f k Mf. apply (ns_part_ok _ f k Mf). rewrite (proj1 Mf). lia. Qed.
Lemma ns_part_len : forall fuel f k, monic_of_degree p f k -> (length (ns_part fuel p f) <= length f)%nat.
Proof.
  induction fuel as [|fu IH]; intros f k Mf; cbn [ns_part]; [lia|]. destruct (ns_factor p f) as [h|] eqn:EF; [|lia]. destruct k as [|k].
  { exfalso. destruct (ns_factor_some f _ h Mf EF) as (d & Mh & DV). destruct (nf_of_monic p Hp _ _ Mf) as [_ Df], (nf_of_monic p Hp _ _ Mh) as [_ Dh]. pose proof (pdvd_deg p Hp _ _ _ _ DV (hdeg_mul p Hp _ _ _ _ Dh Dh) Df). lia. }
  pose proof (ns_part_ok (S fu + S k) f k Mf ltac:(lia)) as _. destruct (ns_factor_some f _ h Mf EF) as (d & Mh & c & Ec). destruct (nf_of_monic p Hp _ _ Mf) as [Nf Df], (nf_of_monic p Hp _ _ Mh) as [Nh Dh]. destruct (ndivrem_ok p Hp f h (S d) Nf Nh Dh) as (q & r & -> & EQ & Dr & Nq & Nr).
  assert (Eq : q == pmul c h /\ r == []). { apply (div_unique p Hp q (pmul c h) h (S d) r []); [exact Dh|exact Dr|apply dlt_nil|]. rewrite <- EQ, Ec. ring. } destruct Eq as [Eq Er].
  assert (EF2 : f == pmul q h) by (rewrite EQ, Er; ring). assert (Dq0 : hdeg p (pmul q h) (S k)) by (apply (hdeg_ext p f); assumption). apply (hdeg_factor p Hp) in Dq0 as (i & j & Dq & Dj & Eij). pose proof (hdeg_uniq p _ _ _ Dj Dh) as ->.
  assert (Mq : monic_of_degree p q i).
  { split; [apply (nf_len p Hp); assumption|]. split; [|apply (nf_range p Hp); exact Nq]. destruct (pmul_top p q h i (S d) (hdeg_dlt p _ _ Dq) (hdeg_dlt p _ _ Dh)) as [_ T]. destruct Mh as (_ & Th & _). destruct Mf as (_ & Tf & _). change (nth (S d) h 0) with (pc h (S d)) in Th. change (nth (S k) f 0) with (pc f (S k)) in Tf. rewrite Th, Z.mul_1_r, Eij in T. rewrite <- (EF2 (S k)), Tf in T.
    change (nth i q 0) with (pc q i). pose proof (nf_pc p Hp q i Nq) as R. pose proof (p2 p Hp). destruct T as [z T]. assert (z <= -1 \/ z = 0 \/ 1 <= z) as [?|[?|?]] by lia; [nia|subst z; lia|nia]. }
  etransitivity; [apply (IH q i Mq)|]. rewrite (proj1 Mq), (proj1 Mf). lia.
Qed.
Lemma ns_sqf_ok : sqf_contract p (ns_sqf p) (ns_sqpart p).
Proof.
  intros f k Mf. split; [|split; [apply (ns_part_len _ f (S k) Mf)|]].
  - unfold ns_sqf. destruct (ns_factor p f) as [h|] eqn:EF; split; try reflexivity; [discriminate| |intros _; apply (ns_factor_none f (S k) Mf EF)].
    intros SF. destruct (ns_factor_some f _ h Mf EF) as (d & Mh & DV). destruct (nf_of_monic p Hp _ _ Mh) as [_ Dh]. pose proof (hdeg_uniq p _ _ _ Dh (SF h DV)). lia.
  - unfold ns_sqf. destruct (ns_factor p f) as [h|] eqn:EF; [|discriminate]. intros _. destruct (ns_factor_some f _ h Mf EF) as (d & Mh & DV). destruct (nf_of_monic p Hp _ _ Mh) as [_ Dh]. destruct (ns_sqpart_ok f k Mf) as (Q & j & ME & EV & SF & _).
    pose proof (ns_part_len (length f) f (S k) Mf) as L. fold (ns_sqpart p f) in L. destruct (Nat.eq_dec (length (ns_sqpart p f)) (length f)) as [E|E]; [exfalso|lia]. rewrite (proj1 Mf) in E.
    destruct (nf_of_monic p Hp _ _ ME) as [_ DE], (nf_of_monic p Hp _ _ Mf) as [_ Df]. assert (j = k) by (destruct ME as [L0 _]; lia). subst j.
    assert (SQ : squarefree p f). { assert (DQ : hdeg p (pmul Q (ns_sqpart p f)) (S k)) by (apply (hdeg_ext p f); assumption). apply (hdeg_factor p Hp) in DQ as (i & j & DQ & Dj & Eij). pose proof (hdeg_uniq p _ _ _ Dj DE) as ->. assert (i = 0%nat) by lia. subst i. destruct (unit_const p Hp Q DQ) as (z & Ez).
      intros g [c Ec]. apply SF. exists (pmul [z] c). set (s0 := ns_sqpart p f) in *. clearbody s0. transitivity (pmul [z] f); [|rewrite Ec; ring]. rewrite EV. transitivity (pmul (pmul [z] Q) s0); [|ring]. rewrite <- (pscal_pmul p z Q), Ez. ring. }
    pose proof (hdeg_uniq p _ _ _ Dh (SQ h DV)). lia.
Qed.
End Contracts.
