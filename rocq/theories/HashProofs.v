From Coq Require Import ZArith NArith Arith List Bool Lia Znumtheory.
From Verif Require Import ModInvModel MonoSpec MonoSpecProofs MonoModel MonoProofs HashModel.
Import ListNotations.
Open Scope N_scope.

(** ** Triangular probing visits every slot *)
Definition tri (s : N) : N := s * (s + 1) / 2.
Definition pos (b h s : N) : N := (h + tri s) mod 2 ^ b.

Lemma tri2 s : 2 * tri s = s * (s + 1).
Proof.
  unfold tri. symmetry. apply N.div_exact; [discriminate|].
  induction s as [|s IH] using N.peano_ind; [reflexivity|].
  replace (N.succ s * (N.succ s + 1)) with (s * (s + 1) + (s + 1) * 2) by lia.
  rewrite N.mod_add by discriminate. exact IH.
Qed.
Lemma tri_succ s : tri (s + 1) = tri s + (s + 1).
Proof. pose proof (tri2 s). pose proof (tri2 (s + 1)). nia. Qed.

Lemma odd_pow2_coprime b x : Z.Odd x -> rel_prime (2 ^ Z.of_nat b) x.
Proof.
  intros Hx. apply rel_prime_sym. induction b as [|b IH].
  - cbn. apply rel_prime_sym, rel_prime_1.
  - rewrite Nat2Z.inj_succ, Z.pow_succ_r by lia. apply rel_prime_mult; [|exact IH].
    apply rel_prime_sym. apply prime_rel_prime; [exact prime_2|]. intros (q & Hq). destruct Hx as (r & Hr). lia.
Qed.

Lemma pos_inj b h s s' : s < 2 ^ b -> s' < 2 ^ b -> pos b h s = pos b h s' -> s = s'.
Proof.
  intros Hs Hs'. assert (W : forall i j, i < j -> j < 2 ^ b -> pos b h i <> pos b h j).
  { clear. intros i j Hij Hj E. unfold pos in E.
    assert (Hd : (2 ^ Z.of_N (b + 1) | (Z.of_N j - Z.of_N i) * (Z.of_N i + Z.of_N j + 1))%Z).
    { assert (H0 : 2 ^ b <> 0) by (apply N.pow_nonzero; discriminate).
      pose proof (N.div_mod (h + tri i) _ H0). pose proof (N.div_mod (h + tri j) _ H0). rewrite <- E in *.
      pose proof (tri2 i). pose proof (tri2 j).
      exists (Z.of_N ((h + tri j) / 2 ^ b) - Z.of_N ((h + tri i) / 2 ^ b))%Z.
      rewrite N2Z.inj_add, Z.pow_add_r by lia. change (2 ^ Z.of_N 1)%Z with 2%Z.
      assert (P : Z.of_N (2 ^ b) = (2 ^ Z.of_N b)%Z) by (rewrite N2Z.inj_pow; reflexivity).
      rewrite <- P.
      assert (Ei : (2 * Z.of_N (tri i) = Z.of_N i * (Z.of_N i + 1))%Z) by lia.
      assert (Ej : (2 * Z.of_N (tri j) = Z.of_N j * (Z.of_N j + 1))%Z) by lia.
      assert (Fi : (Z.of_N h + Z.of_N (tri i) = Z.of_N (2 ^ b) * Z.of_N ((h + tri i) / 2 ^ b) + Z.of_N ((h + tri i) mod 2 ^ b))%Z) by lia.
      assert (Fj : (Z.of_N h + Z.of_N (tri j) = Z.of_N (2 ^ b) * Z.of_N ((h + tri j) / 2 ^ b) + Z.of_N ((h + tri i) mod 2 ^ b))%Z) by lia.
      transitivity (2 * (Z.of_N (tri j) - Z.of_N (tri i)))%Z; [nia|nia]. }
    assert (P1 : Z.of_N (2 ^ b) = (2 ^ Z.of_N b)%Z) by (rewrite N2Z.inj_pow; reflexivity).
    assert (P2 : (2 ^ Z.of_N (b + 1) = 2 * 2 ^ Z.of_N b)%Z) by (rewrite N2Z.inj_add, Z.pow_add_r by lia; change (2 ^ Z.of_N 1)%Z with 2%Z; ring).
    assert (HB : (Z.of_N (b + 1) = Z.of_nat (N.to_nat (b + 1)))%Z) by lia.
    destruct (Z.Even_or_Odd (Z.of_N j - Z.of_N i)) as [(u & Hu)|Ho].
    - assert (Ho : Z.Odd (Z.of_N i + Z.of_N j + 1)) by (exists (u + Z.of_N i)%Z; lia).
      rewrite Z.mul_comm in Hd. apply Gauss in Hd; [|rewrite HB; apply odd_pow2_coprime; exact Ho].
      apply Z.divide_pos_le in Hd; lia.
    - apply Gauss in Hd; [|rewrite HB; apply odd_pow2_coprime; exact Ho].
      apply Z.divide_pos_le in Hd; lia. }
  intros E. destruct (N.lt_trichotomy s s') as [L|[L|L]]; [|assumption|]; exfalso.
  - eapply W; eauto. - eapply (W s' s); eauto.
Qed.

Lemma mask_mod b x : b <= 32 -> N.land x ((2 ^ b - 1) mod 2 ^ 32) = x mod 2 ^ b.
Proof.
  intros Hb. assert (Hp : 2 ^ b <= 2 ^ 32) by (apply N.pow_le_mono_r; lia).
  assert (H0 : 2 ^ b <> 0) by (apply N.pow_nonzero; discriminate).
  rewrite N.mod_small by lia. replace (2 ^ b - 1) with (N.ones b) by (rewrite N.ones_equiv; lia). apply N.land_ones.
Qed.

Lemma pos_lt b h s : pos b h s < 2 ^ b.
Proof. apply N.mod_lt. apply N.pow_nonzero. discriminate. Qed.
Lemma pos_step b h s : (pos b h s + (s + 1)) mod 2 ^ b = pos b h (s + 1).
Proof. unfold pos. rewrite N.add_mod_idemp_l by (apply N.pow_nonzero; discriminate). rewrite tri_succ. f_equal. lia. Qed.

(** ** The map and the entries below n *)
Section Map.
Variable b : N.
Record mapinv (vals : list N) (hmap : N -> N) : Prop := {
  mi_range : forall k, k < 2 ^ b -> hmap k < N.of_nat (length vals);
  mi_uniq : forall k k', k < 2 ^ b -> k' < 2 ^ b -> hmap k = hmap k' -> hmap k <> 0 -> k = k';
  mi_path : forall j h, (1 <= j)%nat -> nth_error vals j = Some h ->
    exists s, s < 2 ^ b /\ hmap (pos b h s) = N.of_nat j /\ forall s', s' < s -> hmap (pos b h s') <> 0 }.

Lemma NoDup_map_in {A B} (f : A -> B) l : NoDup l -> (forall x y, In x l -> In y l -> f x = f y -> x = y) -> NoDup (map f l).
Proof.
  induction 1 as [|x l Hx Hl IH]; intros H; cbn; constructor.
  - rewrite in_map_iff. intros (y & E & Hy). assert (y = x) by (apply H; cbn; auto). subst y. contradiction.
  - apply IH. intros y z Hy Hz. apply H; cbn; auto.
Qed.

Lemma free_slot vals hmap h : mapinv vals hmap -> vals <> [] -> N.of_nat (length vals) <= 2 ^ b ->
  exists s, s < 2 ^ b /\ hmap (pos b h s) = 0.
Proof.
  intros [HR HU _] Hne Hcap.
  destruct (Forall_Exists_dec (fun s => hmap (pos b h (N.of_nat s)) <> 0)
     (fun s => match N.eq_dec (hmap (pos b h (N.of_nat s))) 0 with left e => right (fun H => H e) | right n => left n end)
     (seq 0 (N.to_nat (2 ^ b)))) as [HF|HE].
  - exfalso. rewrite Forall_forall in HF.
    set (L := map (fun s => N.to_nat (hmap (pos b h (N.of_nat s)))) (seq 0 (N.to_nat (2 ^ b)))).
    assert (ND : NoDup L).
    { apply NoDup_map_in; [apply seq_NoDup|]. intros x y Hx Hy E. apply N2Nat.inj in E.
      assert (Hx' := Hx). apply in_seq in Hx'. apply in_seq in Hy.
      apply HU in E; auto using pos_lt. apply pos_inj in E; lia. }
    assert (IN : incl L (seq 1 (length vals - 1))).
    { intros v Hv. unfold L in Hv. apply in_map_iff in Hv. destruct Hv as (s & <- & Hs). specialize (HF s Hs).
      specialize (HR (pos b h (N.of_nat s)) (pos_lt _ _ _)). apply in_seq. lia. }
    apply NoDup_incl_length in IN; [|assumption]. unfold L in IN. rewrite map_length, !seq_length in IN.
    assert (length vals <> 0)%nat by (destruct vals; [contradiction|discriminate]). lia.
  - apply Exists_exists in HE. destruct HE as (s & Hs & Hz). apply in_seq in Hs. exists (N.of_nat s). split; [lia|].
    destruct (N.eq_dec (hmap (pos b h (N.of_nat s))) 0); [assumption|contradiction].
Qed.

(* first free slot *)
Lemma first_free vals hmap h : mapinv vals hmap -> vals <> [] -> N.of_nat (length vals) <= 2 ^ b ->
  exists s, s < 2 ^ b /\ hmap (pos b h s) = 0 /\ forall s', s' < s -> hmap (pos b h s') <> 0.
Proof.
  intros HI Hne Hcap. destruct (free_slot vals hmap h HI Hne Hcap) as (s & Hs & Hz).
  revert Hs Hz. induction s as [s IH] using (well_founded_induction N.lt_wf_0). intros Hs Hz.
  destruct (Exists_dec (fun x => hmap (pos b h (N.of_nat x)) = 0) (seq 0 (N.to_nat s)) (fun x => N.eq_dec _ 0)) as [HE|HN].
  - apply Exists_exists in HE. destruct HE as (x & Hx & Hzx). apply in_seq in Hx. apply (IH (N.of_nat x)); auto; lia.
  - exists s. split; [assumption|]. split; [assumption|]. intros s' Hs' E. apply HN. apply Exists_exists.
    exists (N.to_nat s'). split; [apply in_seq; lia|]. rewrite N2Nat.id. assumption.
Qed.

Lemma mapinv_add vals hmap h s : mapinv vals hmap -> vals <> [] -> s < 2 ^ b -> hmap (pos b h s) = 0 ->
  (forall s', s' < s -> hmap (pos b h s') <> 0) ->
  mapinv (vals ++ [h]) (fset hmap (pos b h s) (N.of_nat (length vals))).
Proof.
  intros [HR HU HP] Hne Hs Hz Hpath.
  assert (Hpos : 0 < N.of_nat (length vals)) by (destruct vals; [contradiction|cbn; lia]).
  constructor.
  - intros k Hk. unfold fset. rewrite app_length. cbn [length]. destruct (N.eqb_spec k (pos b h s)); [lia|].
    specialize (HR k Hk). lia.
  - intros k k' Hk Hk'. unfold fset. destruct (N.eqb_spec k (pos b h s)); destruct (N.eqb_spec k' (pos b h s)); try congruence.
    + intros E _. specialize (HR k' Hk'). lia.
    + intros E _. specialize (HR k Hk). lia.
    + apply HU; assumption.
  - intros j hj Hj Hn.
    assert (Hnz : forall x, hmap x <> 0 -> fset hmap (pos b h s) (N.of_nat (length vals)) x <> 0).
    { intros x Hx. unfold fset. destruct (N.eqb_spec x (pos b h s)); [lia|assumption]. }
    destruct (Nat.lt_ge_cases j (length vals)) as [L|L].
    + rewrite nth_error_app1 in Hn by assumption. destruct (HP j hj Hj Hn) as (s1 & H1 & H2 & H3).
      exists s1. split; [assumption|]. split; [|auto]. unfold fset. destruct (N.eqb_spec (pos b hj s1) (pos b h s)) as [E|]; [|assumption].
      rewrite E, Hz in H2. lia.
    + rewrite nth_error_app2 in Hn by assumption. destruct (j - length vals)%nat as [|q] eqn:Eq; [|destruct q; discriminate].
      cbn in Hn. injection Hn as <-. exists s. split; [assumption|]. split.
      * unfold fset. rewrite N.eqb_refl. f_equal. lia.
      * intros s' Hs'. apply Hnz. auto.
Qed.

Lemma mapinv_nil x : mapinv [x] (fun _ => 0).
Proof.
  constructor.
  - intros. cbn. lia.
  - intros; contradiction.
  - intros [|j] h Hj Hn; [lia|]. destruct j; discriminate.
Qed.

Lemma probe_empty_ok hmap h (Hb : b <= 32) s : s < 2 ^ b -> hmap (pos b h s) = 0 -> (forall s', s' < s -> hmap (pos b h s') <> 0) ->
  forall cnt j k, j <= s -> s < j + N.of_nat cnt -> (k + j) mod 2 ^ b = pos b h j ->
  probe_empty cnt j k (2 ^ b) hmap = Some (pos b h s).
Proof.
  intros Hs Hz Hp. induction cnt as [|c IH]; intros j k Hj Hc Hk; [lia|].
  cbn [probe_empty]. rewrite mask_mod by assumption. rewrite Hk.
  destruct (N.eqb_spec (hmap (pos b h j)) 0) as [E|E].
  - destruct (N.eq_dec j s) as [->|]; [reflexivity|]. exfalso. apply (Hp j); [lia|assumption].
  - apply IH; [|lia|apply pos_step]. destruct (N.eq_dec j s) as [->|]; [contradiction|lia].
Qed.

Lemma rehash_ok (Hb : b <= 32) : forall rest done hmap, done <> [] -> mapinv done hmap ->
  N.of_nat (length done + length rest) <= 2 ^ b ->
  mapinv (done ++ rest) (rehash rest (N.of_nat (length done)) (2 ^ b) hmap).
Proof.
  induction rest as [|h rest IH]; intros done hmap Hne HI Hcap; cbn [rehash].
  - rewrite app_nil_r. assumption.
  - cbn [length] in Hcap. destruct (first_free done hmap h HI Hne) as (s & Hs & Hz & Hp); [lia|].
    rewrite (probe_empty_ok hmap h Hb s Hs Hz Hp); [|lia|lia|].
    + replace (done ++ h :: rest) with ((done ++ [h]) ++ rest) by (rewrite <- app_assoc; reflexivity).
      replace (N.of_nat (length done) + 1) with (N.of_nat (length (done ++ [h]))) by (rewrite app_length; cbn; lia).
      apply IH.
      * destruct done; discriminate.
      * assert (Hp32 : 2 ^ b <= 2 ^ 32) by (apply N.pow_le_mono_r; lia).
        rewrite N.mod_small by lia. apply mapinv_add; assumption.
      * rewrite app_length. cbn. lia.
    + unfold pos, tri. cbn. rewrite N.add_0_r. reflexivity.
Qed.
End Map.

(** ** Equality test and hash *)
Lemma eq_pairs_ok cnt : forall j a e, (j + 2 * cnt <= length a)%nat -> (j + 2 * cnt <= length e)%nat ->
  exists r, eq_pairs cnt j a e = Some r /\ (r = true <-> forall i, (j <= i < j + 2 * cnt)%nat -> ex a i = ex e i).
Proof.
  induction cnt as [|c IH]; intros j a e Ha He.
  - exists true. split; [reflexivity|]. split; auto. intros; lia.
  - cbn [eq_pairs]. rewrite !rd_ex by lia. cbn [obind]. destruct (N.eqb_spec (ex a j) (ex e j)) as [E|E]; cbn [negb].
    2:{ exists false. split; [reflexivity|]. split; [discriminate|]. intros H. exfalso. apply E, H. lia. }
    destruct (N.eqb_spec (ex a (j+1)) (ex e (j+1))) as [E'|E']; cbn [negb].
    2:{ exists false. split; [reflexivity|]. split; [discriminate|]. intros H. exfalso. apply E', H. lia. }
    destruct (IH (j+2)%nat a e) as (r & -> & Hr); [lia|lia|]. exists r. split; [reflexivity|]. rewrite Hr. split.
    + intros H i Hi. destruct (Nat.eq_dec i j) as [->|]; [assumption|]. destruct (Nat.eq_dec i (j+1)) as [->|]; [assumption|]. apply H. lia.
    + intros H i Hi. apply H. lia.
Qed.
Lemma eq_ev_ok evl a e : (0 < evl)%nat -> length a = evl -> length e = evl ->
  exists r, eq_ev evl a e = Some r /\ (r = true <-> a = e).
Proof.
  intros Hp Ha He. unfold eq_ev. pose proof (Nat.div_mod evl 2 ltac:(lia)). pose proof (Nat.mod_upper_bound evl 2 ltac:(lia)).
  destruct (eq_pairs_ok (evl / 2) 0 a e) as (r & -> & Hr); [lia|lia|]. cbn [obind]. destruct r.
  - rewrite !rd_ex by lia. cbn [obind]. eexists. split; [reflexivity|]. rewrite N.eqb_eq. split; [|intros ->; reflexivity].
    intros E. apply ex_eq; [congruence|]. intros i. destruct (Nat.lt_ge_cases i evl); [|rewrite !ex_overflow by lia; reflexivity].
    destruct (Nat.eq_dec i (evl-1)) as [->|]; [assumption|]. apply (proj1 Hr eq_refl). lia.
  - exists false. split; [reflexivity|]. split; [discriminate|]. intros ->. exfalso. assert (false = true) by (apply Hr; reflexivity). discriminate.
Qed.

(** hash as a weighted sum *)
Fixpoint wsum (cnt j : nat) (rn a : list N) : N :=
  match cnt with O => 0 | S c => ex rn j * ex a j + wsum c (S j) rn a end.
Lemma hash_loop_ok cnt : forall j rn a h, (j + cnt <= length rn)%nat -> (j + cnt <= length a)%nat -> h < 2 ^ 32 ->
  hash_loop cnt j rn a h = Some ((h + wsum cnt j rn a) mod 2 ^ 32).
Proof.
  induction cnt as [|c IH]; intros j rn a h Hr Ha Hh; cbn [hash_loop wsum].
  - rewrite N.add_0_r, N.mod_small by assumption. reflexivity.
  - rewrite !rd_ex by lia. cbn [obind]. rewrite IH; [|lia|lia|apply N.mod_lt; discriminate].
    rewrite N.add_mod_idemp_l by discriminate. f_equal. f_equal. lia.
Qed.

(** ** Table invariant *)
Record inv (t : tab) : Prop := {
  i_evl : (0 < hb_evl t)%nat;
  i_rn : length (hb_rn t) = hb_evl t;
  i_b : exists b, 1 <= b <= 32 /\ hb_hsz t = 2 ^ b /\ mapinv b (hb_val t) (hb_hmap t);
  i_esz : 0 < hb_esz t /\ (hb_hsz t < 2 ^ 32 -> 2 * hb_esz t = hb_hsz t) /\ (hb_hsz t = 2 ^ 32 -> 2 ^ 31 <= hb_esz t);
  i_len : length (hb_val t) = length (hb_ev t);
  i_ne : hb_ev t <> [];
  i_ld : eld t <= hb_esz t /\ eld t <= 2 ^ 32;
  i_ok : Forall (fun e => length e = hb_evl t) (hb_ev t);
  i_val : forall j e, (1 <= j)%nat -> nth_error (hb_ev t) j = Some e -> exists h, nth_error (hb_val t) j = Some h /\ hash t e = Some h;
  i_nd : NoDup (tl (hb_ev t)) }.

Lemma hash_total t a : inv t -> length a = hb_evl t -> exists h, hash t a = Some h /\ h < 2 ^ 32.
Proof.
  intros HI Ha. unfold hash. rewrite hash_loop_ok; rewrite ?(i_rn t HI); try lia.
  eexists. split; [reflexivity|]. apply N.mod_lt. discriminate.
Qed.

Lemma nth_error_tl {A} (l : list A) j : (1 <= j)%nat -> nth_error (tl l) (j - 1) = nth_error l j.
Proof. intros H. destruct j as [|j]; [lia|]. replace (S j - 1)%nat with j by lia. destruct l; [destruct j|]; reflexivity. Qed.

(** result of probing *)
Lemma probe_ok t a h : inv t -> length a = hb_evl t -> hash t a = Some h -> eld t <= hb_hsz t ->
  (exists hm, probe (N.to_nat (hb_hsz t)) 0 h t h a = Some (Found hm) /\ (1 <= N.to_nat hm)%nat /\
     nth_error (hb_ev t) (N.to_nat hm) = Some a) \/
  (exists b s, probe (N.to_nat (hb_hsz t)) 0 h t h a = Some (Free (pos b h s)) /\ hb_hsz t = 2 ^ b /\ 1 <= b <= 32 /\
     mapinv b (hb_val t) (hb_hmap t) /\ s < 2 ^ b /\
     hb_hmap t (pos b h s) = 0 /\ (forall s', s' < s -> hb_hmap t (pos b h s') <> 0) /\ ~ In a (tl (hb_ev t))).
Proof.
  intros HI Ha Hh Hcap. destruct (i_b t HI) as (b & Hb & Hsz & Hm).
  assert (Hvne : hb_val t <> []). { pose proof (i_len t HI). pose proof (i_ne t HI). destruct (hb_val t); [destruct (hb_ev t); [contradiction|discriminate]|discriminate]. }
  destruct (first_free b (hb_val t) (hb_hmap t) h Hm Hvne) as (s & Hs & Hz & Hp).
  { rewrite (i_len t HI). fold (eld t). lia. }
  assert (Hent : forall k, k < 2 ^ b -> hb_hmap t k <> 0 -> exists v e q, (1 <= N.to_nat (hb_hmap t k))%nat /\
      rd (hb_val t) (N.to_nat (hb_hmap t k)) = Some v /\ rd (hb_ev t) (N.to_nat (hb_hmap t k)) = Some e /\
      hash t e = Some v /\ eq_ev (hb_evl t) a e = Some q /\ (q = true <-> a = e)).
  { intros k Hk Hnz. pose proof (mi_range b _ _ Hm k Hk) as Hr. rewrite (i_len t HI) in Hr.
    destruct (nth_error (hb_ev t) (N.to_nat (hb_hmap t k))) as [e|] eqn:Ee.
    2:{ apply nth_error_None in Ee. lia. }
    destruct (i_val t HI (N.to_nat (hb_hmap t k)) e) as (v & Hv & Hhv); [lia|assumption|].
    assert (Hle : length e = hb_evl t). { pose proof (i_ok t HI) as HF. rewrite Forall_forall in HF. apply HF. eapply nth_error_In; eassumption. }
    destruct (eq_ev_ok (hb_evl t) a e (i_evl t HI) Ha Hle) as (q & Hq & Hqe).
    exists v, e, q. split; [lia|]. split; [exact Hv|]. split; [exact Ee|]. auto. }
  assert (Hgen : forall cnt i k, i <= s -> s < i + N.of_nat cnt -> (k + i) mod 2 ^ b = pos b h i ->
     (forall s' , s' < i -> nth_error (hb_ev t) (N.to_nat (hb_hmap t (pos b h s'))) <> Some a) ->
     (exists hm, probe cnt i k t h a = Some (Found hm) /\ (1 <= N.to_nat hm)%nat /\ nth_error (hb_ev t) (N.to_nat hm) = Some a) \/
     (probe cnt i k t h a = Some (Free (pos b h s)) /\ forall s', s' < s -> nth_error (hb_ev t) (N.to_nat (hb_hmap t (pos b h s'))) <> Some a)).
  { induction cnt as [|c IH]; intros i k Hi Hc Hk Hpre; [lia|].
    cbn [probe]. rewrite Hsz, mask_mod by lia. rewrite Hk. unfold hm_rd. rewrite Hsz.
    destruct (N.ltb_spec (pos b h i) (2 ^ b)) as [_|L]; [|pose proof (pos_lt b h i); lia]. cbn [obind].
    destruct (N.eqb_spec (hb_hmap t (pos b h i)) 0) as [E|E].
    - right. destruct (N.eq_dec i s) as [->|]; [|exfalso; apply (Hp i); [lia|assumption]]. split; [reflexivity|]. exact Hpre.
    - assert (His : i < s) by (destruct (N.eq_dec i s) as [->|]; [contradiction|lia]).
      destruct (Hent (pos b h i) (pos_lt b h i) E) as (v & e & q & Hge & Hv & He & Hhe & Hq & Hqe). rewrite Hv. cbn [obind].
      assert (Hnext : nth_error (hb_ev t) (N.to_nat (hb_hmap t (pos b h i))) <> Some a ->
         (exists hm, probe c (i+1) (pos b h i) t h a = Some (Found hm) /\ (1 <= N.to_nat hm)%nat /\ nth_error (hb_ev t) (N.to_nat hm) = Some a) \/
         (probe c (i+1) (pos b h i) t h a = Some (Free (pos b h s)) /\ forall s', s' < s -> nth_error (hb_ev t) (N.to_nat (hb_hmap t (pos b h s'))) <> Some a)).
      { intros Hne. apply IH; [lia|lia|apply pos_step|]. intros s' Hs'. destruct (N.eq_dec s' i) as [->|]; [exact Hne|]. apply Hpre. lia. }
      destruct (N.eqb_spec v h) as [Ev|Ev]; cbn [negb].
      + rewrite He. cbn [obind]. rewrite Hq. cbn [obind]. destruct q.
        * left. exists (hb_hmap t (pos b h i)). split; [reflexivity|]. split; [exact Hge|]. replace a with e by (symmetry; apply Hqe; reflexivity). exact He.
        * apply Hnext. unfold rd in He. rewrite He. intros [= ->]. assert (false = true) by (apply Hqe; reflexivity). discriminate.
      + apply Hnext. unfold rd in He. rewrite He. intros [= ->]. congruence. }
  destruct (Hgen (N.to_nat (hb_hsz t)) 0 h) as [HF|[HF HN]]; [lia|lia| |intros; lia| |].
  - unfold pos, tri. cbn. rewrite N.add_0_r. reflexivity.
  - left. exact HF.
  - right. exists b, s. split; [exact HF|]. split; [exact Hsz|]. split; [lia|]. split; [exact Hm|]. split; [exact Hs|]. split; [exact Hz|]. split; [exact Hp|].
    intros Hin. apply In_nth_error in Hin. destruct Hin as (j & Hj).
    assert (Hj' : nth_error (hb_ev t) (S j) = Some a). { rewrite <- Hj. rewrite <- (nth_error_tl _ (S j)) by lia. f_equal. lia. }
    destruct (i_val t HI (S j) a ltac:(lia) Hj') as (v & Hv & Hhv). rewrite Hh in Hhv. injection Hhv as <-.
    destruct (mi_path b _ _ Hm (S j) h ltac:(lia) Hv) as (s1 & Hs1 & Hm1 & Hp1).
    destruct (N.lt_trichotomy s1 s) as [L|[->|L]].
    + apply (HN s1 L). rewrite Hm1, Nat2N.id. exact Hj'.
    + rewrite Hz in Hm1. lia.
    + apply (Hp1 s L). exact Hz.
Qed.

(** ** Specification: an interning list *)
Fixpoint index_of (a : list N) (l : list (list N)) : option nat :=
  match l with [] => None | x :: l' => if list_eq_dec N.eq_dec a x then Some O else match index_of a l' with Some i => Some (S i) | None => None end end.
Definition spec_insert (l : list (list N)) (a : list N) : list (list N) * N :=
  match index_of a l with Some i => (l, N.of_nat (S i)) | None => (l ++ [a], N.of_nat (S (length l))) end.

Lemma index_of_None a l : index_of a l = None <-> ~ In a l.
Proof.
  induction l as [|x l IH]; cbn; [tauto|]. destruct (list_eq_dec N.eq_dec a x) as [->|Hne]; [split; [discriminate|tauto]|].
  destruct (index_of a l); split; try discriminate; intuition congruence.
Qed.
Lemma index_of_nth a l i : NoDup l -> nth_error l i = Some a -> index_of a l = Some i.
Proof.
  revert i; induction l as [|x l IH]; intros i Hnd Hi; [destruct i; discriminate|]. inversion Hnd; subst. cbn.
  destruct i as [|i]; cbn in Hi.
  - injection Hi as ->. destruct (list_eq_dec N.eq_dec a a); [reflexivity|contradiction].
  - destruct (list_eq_dec N.eq_dec a x) as [->|Hne]; [exfalso; apply H1; eapply nth_error_In; eassumption|]. rewrite (IH i) by assumption. reflexivity.
Qed.
Lemma index_of_Some a l i : index_of a l = Some i -> nth_error l i = Some a.
Proof.
  revert i; induction l as [|x l IH]; intros i H; cbn in H; [discriminate|].
  destruct (list_eq_dec N.eq_dec a x) as [->|]; [injection H as <-; reflexivity|].
  destruct (index_of a l) as [j|]; [|discriminate]. injection H as <-. cbn. auto.
Qed.

Lemma hash_same t t' a : hb_evl t = hb_evl t' -> hb_rn t = hb_rn t' -> hash t a = hash t' a.
Proof. intros H1 H2. unfold hash. rewrite H1, H2. reflexivity. Qed.

Definition contents (t : tab) : list (list N) := tl (hb_ev t).
Lemma eld_contents t : inv t -> eld t = N.of_nat (S (length (contents t))).
Proof. intros HI. unfold eld, contents. pose proof (i_ne t HI). destruct (hb_ev t); [contradiction|reflexivity]. Qed.

Theorem insert_h_ok t a h : inv t -> length a = hb_evl t -> hash t a = Some h -> eld t < hb_esz t -> eld t < 2 ^ 32 ->
  exists t', insert_h (hb_hsz t) t h a = Some (t', snd (spec_insert (contents t) a)) /\ inv t' /\
  contents t' = fst (spec_insert (contents t) a) /\ hb_evl t' = hb_evl t /\ hb_rn t' = hb_rn t /\
  hb_esz t' = hb_esz t /\ hb_hsz t' = hb_hsz t.
Proof.
  intros HI Ha Hh Hcap H32. unfold insert_h.
  assert (Hcap' : eld t <= hb_hsz t).
  { destruct (i_esz t HI) as (_ & E1 & E2). destruct (i_b t HI) as (b & Hb & Hsz & _).
    assert (2 ^ b <= 2 ^ 32) by (apply N.pow_le_mono_r; lia). destruct (N.eq_dec (hb_hsz t) (2 ^ 32)); lia. }
  destruct (probe_ok t a h HI Ha Hh Hcap') as [(hm & -> & H1 & Hn)|(b & s & -> & Hsz & Hb & Hm & Hs & Hz & Hp & Hnin)].
  - exists t. unfold spec_insert. rewrite (index_of_nth a (contents t) (N.to_nat hm - 1) (i_nd t HI)).
    + cbn [fst snd]. split; [f_equal; f_equal; lia|]. auto 10.
    + unfold contents. rewrite nth_error_tl by assumption. exact Hn.
  - unfold add_entry. destruct (N.ltb_spec (eld t) (hb_esz t)); [|lia]. rewrite Hsz.
    destruct (N.ltb_spec (pos b h s) (2 ^ b)) as [_|L]; [|pose proof (pos_lt b h s); lia].
    rewrite N.mod_small by assumption. unfold spec_insert. unfold contents in *.
    rewrite (proj2 (index_of_None a (tl (hb_ev t))) Hnin). cbn [fst snd].
    eexists. split; [f_equal; f_equal; rewrite (eld_contents t HI); reflexivity|].
    pose proof (i_ne t HI) as Hne. pose proof (i_len t HI) as Hlen.
    assert (Hvne : hb_val t <> []) by (destruct (hb_val t); [destruct (hb_ev t); [contradiction|discriminate]|discriminate]).
    assert (Htl : tl (hb_ev t ++ [a]) = tl (hb_ev t) ++ [a]) by (destruct (hb_ev t); [contradiction|reflexivity]).
    split; [|cbn; auto 10].
    constructor; cbn [hb_evl hb_rn hb_esz hb_hsz hb_hmap hb_ev hb_val].
    + apply (i_evl t HI).
    + apply (i_rn t HI).
    + exists b. split; [lia|]. split; [reflexivity|]. unfold eld. rewrite <- Hlen. apply mapinv_add; assumption.
    + rewrite <- Hsz. apply (i_esz t HI).
    + rewrite !app_length. cbn. lia.
    + destruct (hb_ev t); discriminate.
    + unfold eld in *. cbn [hb_ev]. rewrite app_length. cbn [length]. lia.
    + apply Forall_app. split; [apply (i_ok t HI)|]. constructor; [exact Ha|constructor].
    + intros j e Hj Hn. destruct (Nat.lt_ge_cases j (length (hb_ev t))) as [L|L].
      * rewrite nth_error_app1 in Hn by assumption. rewrite nth_error_app1 by lia.
        destruct (i_val t HI j e Hj Hn) as (v & Hv & Hhv). exists v. split; [assumption|]. rewrite <- Hhv. apply hash_same; reflexivity.
      * rewrite nth_error_app2 in Hn by assumption. rewrite nth_error_app2 by lia. rewrite Hlen.
        destruct (j - length (hb_ev t))%nat as [|q]; [|destruct q; discriminate]. cbn in *. injection Hn as <-.
        exists h. split; [reflexivity|]. rewrite <- Hh. apply hash_same; reflexivity.
    + rewrite Htl. rewrite <- (rev_involutive (tl (hb_ev t) ++ [a])). apply NoDup_rev. rewrite rev_app_distr. cbn.
      constructor; [rewrite <- in_rev; exact Hnin|apply NoDup_rev, (i_nd t HI)].
Qed.

Theorem insert_ok t a : inv t -> length a = hb_evl t -> eld t < hb_esz t -> eld t < 2 ^ 32 ->
  exists t', insert t a = Some (t', snd (spec_insert (contents t) a)) /\ inv t' /\
  contents t' = fst (spec_insert (contents t) a) /\ hb_evl t' = hb_evl t /\ hb_rn t' = hb_rn t /\
  hb_esz t' = hb_esz t /\ hb_hsz t' = hb_hsz t.
Proof.
  intros HI Ha H1 H2. unfold insert. destruct (hash_total t a HI Ha) as (h & Hh & _). rewrite Hh. cbn [obind].
  apply insert_h_ok; assumption.
Qed.

Lemma insert_oob t a : inv t -> length a = hb_evl t -> forall t' r, insert t a = Some (t', r) -> eld t <= 2 ^ 32 ->
  In a (contents t) \/ eld t < hb_esz t.
Proof.
  intros HI Ha t' r Hr _. unfold insert in Hr. destruct (hash_total t a HI Ha) as (h & Hh & _). rewrite Hh in Hr. cbn [obind] in Hr.
  unfold insert_h, add_entry in Hr. destruct (N.ltb_spec (eld t) (hb_esz t)) as [|L]; [right; assumption|left].
  assert (Hcap' : eld t <= hb_hsz t).
  { destruct (i_esz t HI) as (_ & E1 & E2). destruct (i_ld t HI) as (L1 & L2). destruct (i_b t HI) as (b & Hb & Hsz & _).
    assert (2 ^ b <= 2 ^ 32) by (apply N.pow_le_mono_r; lia). destruct (N.eq_dec (hb_hsz t) (2 ^ 32)); lia. }
  destruct (probe_ok t a h HI Ha Hh Hcap') as [(hm & Ep & H1 & Hn)|(b & s & Ep & _)].
  - unfold contents. eapply nth_error_In with (n := (N.to_nat hm - 1)%nat). rewrite nth_error_tl by assumption. exact Hn.
  - rewrite Ep in Hr. discriminate.
Qed.

Theorem enlarge_ok t : inv t -> inv (enlarge t) /\ contents (enlarge t) = contents t /\ hb_evl (enlarge t) = hb_evl t /\ hb_rn (enlarge t) = hb_rn t.
Proof.
  intros HI. unfold enlarge. pose proof (i_ld t HI) as (L1 & L2). pose proof (i_esz t HI) as (E0 & E1 & E2).
  destruct (i_b t HI) as (b & Hb & Hsz & Hm).
  pose proof (i_ne t HI) as Hne. pose proof (i_len t HI) as Hlen.
  destruct (N.ltb_spec (hb_hsz t) (2 ^ 32)) as [L|L].
  - split; [|auto]. constructor; cbn [hb_evl hb_rn hb_esz hb_hsz hb_hmap hb_ev hb_val].
    + apply (i_evl t HI). + apply (i_rn t HI).
    + exists (b + 1). assert (Hb31 : b < 32). { destruct (N.lt_ge_cases b 32); [assumption|]. assert (2 ^ 32 <= 2 ^ b) by (apply N.pow_le_mono_r; lia). lia. }
      assert (Hs2 : 2 * hb_hsz t = 2 ^ (b + 1)) by (rewrite Hsz, N.pow_add_r; lia).
      split; [lia|]. split; [exact Hs2|]. rewrite Hs2.
      destruct (hb_val t) as [|v0 vs] eqn:Ev; [destruct (hb_ev t); [contradiction|discriminate]|]. cbn [tl].
      apply (rehash_ok (b + 1) ltac:(lia) vs [v0]); [discriminate|apply mapinv_nil|].
      unfold eld in *. cbn [length] in *. lia.
    + split; [lia|]. split; [lia|]. intros E. specialize (E1 L). lia.
    + exact Hlen. + exact Hne.
    + unfold eld in *. cbn [hb_ev]. lia.
    + apply (i_ok t HI).
    + intros j e Hj Hn. destruct (i_val t HI j e Hj Hn) as (v & Hv & Hhv). exists v. split; [assumption|]. rewrite <- Hhv. apply hash_same; reflexivity.
    + apply (i_nd t HI).
  - assert (Eq32 : hb_hsz t = 2 ^ 32). { assert (2 ^ b <= 2 ^ 32) by (apply N.pow_le_mono_r; lia). lia. }
    split; [|auto]. constructor; cbn [hb_evl hb_rn hb_esz hb_hsz hb_hmap hb_ev hb_val].
    + apply (i_evl t HI). + apply (i_rn t HI).
    + exists b. auto.
    + specialize (E2 Eq32). split; [lia|]. split; intros; lia.
    + exact Hlen. + exact Hne.
    + unfold eld in *. cbn [hb_ev]. lia.
    + apply (i_ok t HI).
    + intros j e Hj Hn. destruct (i_val t HI j e Hj Hn) as (v & Hv & Hhv). exists v. split; [assumption|]. rewrite <- Hhv. apply hash_same; reflexivity.
    + apply (i_nd t HI).
Qed.

Theorem init_ok evl rn b : (0 < evl)%nat -> length rn = evl -> 1 <= b <= 32 -> inv (init_tab evl rn b).
Proof.
  intros H1 H2 Hb. unfold init_tab. constructor; cbn [hb_evl hb_rn hb_esz hb_hsz hb_hmap hb_ev hb_val].
  - assumption. - assumption.
  - exists b. split; [assumption|]. split; [reflexivity|]. apply mapinv_nil.
  - assert (E : 2 ^ b = 2 * 2 ^ (b - 1)) by (rewrite <- N.pow_succ_r'; f_equal; lia).
    assert (E' : 2 ^ b / 2 = 2 ^ (b - 1)) by (rewrite E, N.mul_comm, N.div_mul by discriminate; reflexivity).
    rewrite E'. assert (2 ^ (b - 1) <> 0) by (apply N.pow_nonzero; discriminate). split; [lia|]. split; [lia|].
    intros E32. rewrite E in E32. change (2 ^ 32) with (2 * 2 ^ 31) in E32. lia.
  - reflexivity. - discriminate.
  - unfold eld. cbn [hb_ev length]. assert (Hd : 2 ^ b / 2 <> 0).
    { assert (2 ^ 1 <= 2 ^ b) by (apply N.pow_le_mono_r; lia). intros E0. apply N.div_small_iff in E0; [|discriminate]. change (2 ^ 1) with 2 in *. lia. }
    split; [|discriminate]. revert Hd. generalize (2 ^ b / 2). clear. intros x Hx. change (N.of_nat 1) with 1. lia.
  - repeat constructor. apply repeat_length.
  - intros [|j] e Hj Hn; [lia|]. destruct j; discriminate.
  - constructor.
Qed.

Theorem clean_ok t : inv t -> inv (clean t) /\ contents (clean t) = [].
Proof.
  intros HI. split; [|reflexivity]. unfold clean. destruct (i_b t HI) as (b & Hb & Hsz & Hm).
  constructor; cbn [hb_evl hb_rn hb_esz hb_hsz hb_hmap hb_ev hb_val].
  - apply (i_evl t HI). - apply (i_rn t HI).
  - exists b. split; [assumption|]. split; [assumption|]. apply mapinv_nil.
  - apply (i_esz t HI).
  - reflexivity. - discriminate.
  - unfold eld. cbn [hb_ev length]. destruct (i_esz t HI) as [Hd _]. split; [change (N.of_nat 1) with 1; lia|discriminate].
  - repeat constructor. apply repeat_length.
  - intros [|j] e Hj Hn; [lia|]. destruct j; discriminate.
  - constructor.
Qed.

Lemma grow_ok size : size < 2 ^ 31 -> forall fuel c esz hsz, 1 <= c <= 32 -> hsz = 2 ^ c -> 0 < esz ->
  (hsz < 2 ^ 32 -> 2 * esz = hsz) -> (hsz = 2 ^ 32 -> 2 ^ 31 <= esz) -> size < esz * 2 ^ N.of_nat (pred fuel) -> (0 < fuel)%nat ->
  exists esz' hsz' c', grow fuel size esz hsz = Some (esz', hsz') /\ 1 <= c' <= 32 /\ hsz' = 2 ^ c' /\ 0 < esz' /\ size < esz' /\
  (hsz' < 2 ^ 32 -> 2 * esz' = hsz') /\ (hsz' = 2 ^ 32 -> 2 ^ 31 <= esz').
Proof.
  intros Hsize. induction fuel as [|f IH]; intros c esz hsz Hc Hh He H1 H2 Hs Hf; [lia|]. cbn [grow].
  destruct (N.leb_spec esz size) as [L|L]; [|exists esz, hsz, c; auto 10].
  assert (c < 32). { destruct (N.lt_ge_cases c 32); [assumption|]. assert (c = 32) by lia. subst c. specialize (H2 Hh). lia. }
  assert (P : 2 ^ (c + 1) = 2 * 2 ^ c) by (rewrite N.pow_add_r; change (2 ^ 1) with 2; lia).
  assert (Q : 2 ^ c <= 2 ^ 31) by (apply N.pow_le_mono_r; lia).
  change (2 ^ 32) with (2 * 2 ^ 31) in *.
  apply (IH (c + 1)); try lia.
  - cbn [pred] in Hs. destruct f as [|f]; [cbn in Hs; lia|]. cbn [pred].
    replace (N.of_nat (S f)) with (N.of_nat f + 1) in Hs by lia. rewrite N.pow_add_r in Hs. change (2 ^ 1) with 2 in Hs. lia.
  - destruct f; [cbn in Hs; lia|lia].
Qed.

Theorem reinitialize_ok t size : inv t -> size < 2 ^ 31 -> exists t', reinitialize t size = Some t' /\ inv t' /\ contents t' = [] /\
  hb_evl t' = hb_evl t /\ hb_rn t' = hb_rn t /\ size < hb_esz t'.
Proof.
  intros HI Hs. unfold reinitialize. destruct (i_b t HI) as (b & Hb & Hsz & _). destruct (i_esz t HI) as (E0 & E1 & E2).
  destruct (grow_ok size Hs 64 b (hb_esz t) (hb_hsz t) Hb Hsz E0 E1 E2) as (esz' & hsz' & c' & Eg & Hc & Hh & He & Hse & F1 & F2).
  { apply N.lt_le_trans with (2 ^ 31); [assumption|]. cbn [pred]. change (2 ^ N.of_nat 63) with (2 ^ 31 * 2 ^ 32).
    apply N.le_trans with (1 * (2 ^ 31 * 2 ^ 32)); [discriminate|]. apply N.mul_le_mono_r. lia. } { lia. }
  rewrite Eg. cbn [obind fst snd]. eexists. split; [reflexivity|]. split; [|cbn; auto 10].
  constructor; cbn [hb_evl hb_rn hb_esz hb_hsz hb_hmap hb_ev hb_val].
  - apply (i_evl t HI). - apply (i_rn t HI).
  - exists c'. split; [assumption|]. split; [assumption|]. apply mapinv_nil.
  - auto.
  - reflexivity. - discriminate.
  - unfold eld. cbn [hb_ev length]. split; [change (N.of_nat 1) with 1; lia|discriminate].
  - repeat constructor. apply repeat_length.
  - intros [|j] e Hj Hn; [lia|]. destruct j; discriminate.
  - constructor.
Qed.

(** ** Histories *)
Fixpoint spec_all (l : list (list N)) (as_ : list (list N)) : list (list N) * list N :=
  match as_ with [] => (l, []) | a :: r => let x := spec_insert l a in let y := spec_all (fst x) r in (fst y, snd x :: snd y) end.

Lemma spec_insert_len l a : (length (fst (spec_insert l a)) <= S (length l))%nat.
Proof. unfold spec_insert. destruct (index_of a l); cbn [fst]; [lia|]. rewrite app_length. cbn. lia. Qed.
Lemma spec_all_len as_ : forall l, (length (fst (spec_all l as_)) <= length as_ + length l)%nat.
Proof.
  induction as_ as [|a r IH]; intros l; cbn [spec_all fst length]; [lia|].
  specialize (IH (fst (spec_insert l a))). pose proof (spec_insert_len l a). lia.
Qed.

(* everything about one sequence of insertions when the room is there *)
Lemma insert_all_ok as_ : forall t, inv t -> Forall (fun a => length a = hb_evl t) as_ ->
  eld t + N.of_nat (length as_) <= hb_esz t -> eld t + N.of_nat (length as_) <= 2 ^ 32 ->
  exists t', insert_all t as_ = Some (t', snd (spec_all (contents t) as_)) /\ inv t' /\ contents t' = fst (spec_all (contents t) as_) /\
  hb_evl t' = hb_evl t /\ hb_rn t' = hb_rn t.
Proof.
  induction as_ as [|a r IH]; intros t HI HF H1 H2; cbn [insert_all spec_all].
  - exists t. auto.
  - inversion HF; subst. cbn [length] in *.
    destruct (insert_ok t a HI) as (t1 & E1 & I1 & C1 & V1 & R1 & S1 & S2); [assumption|lia|lia|].
    rewrite E1. cbn [obind fst snd].
    assert (Hel : eld t1 <= eld t + 1).
    { rewrite (eld_contents t1 I1), (eld_contents t HI), C1. pose proof (spec_insert_len (contents t) a). lia. }
    destruct (IH t1 I1) as (t2 & E2 & I2 & C2 & V2 & R2).
    { rewrite V1. assumption. } { lia. } { lia. }
    rewrite E2, C1. cbn [obind fst snd]. exists t2. rewrite C2, C1, V2, V1, R2, R1. auto.
Qed.

Lemma reserve_ok fuel : forall t len, inv t -> eld t + len < hb_esz t * 2 ^ N.of_nat (pred fuel) -> (0 < fuel)%nat ->
  exists t', reserve fuel t len = Some t' /\ inv t' /\ contents t' = contents t /\ hb_evl t' = hb_evl t /\ hb_rn t' = hb_rn t /\
  eld t' + len < hb_esz t'.
Proof.
  induction fuel as [|f IH]; intros t len HI Hs Hf; [lia|]. cbn [reserve].
  destruct (N.leb_spec (hb_esz t) (eld t + len)) as [L|L]; [|exists t; auto 10].
  destruct (enlarge_ok t HI) as (I1 & C1 & V1 & R1).
  assert (E2 : hb_esz (enlarge t) = 2 * hb_esz t) by (unfold enlarge; destruct (hb_hsz t <? 2 ^ 32); reflexivity).
  assert (E3 : eld (enlarge t) = eld t) by (unfold enlarge, eld; destruct (hb_hsz t <? 2 ^ 32); reflexivity).
  destruct (IH (enlarge t) len I1) as (t' & Er & I2 & C2 & V2 & R2 & L2).
  - rewrite E2, E3. cbn [pred] in Hs. destruct f as [|f]; [cbn in Hs; lia|]. cbn [pred].
    replace (N.of_nat (S f)) with (N.of_nat f + 1) in Hs by lia. rewrite N.pow_add_r in Hs. change (2 ^ 1) with 2 in Hs. lia.
  - destruct f; [cbn in Hs; lia|lia].
  - exists t'. rewrite Er, C2, C1, V2, V1, R2, R1. auto 10.
Qed.

Theorem insert_poly_ok t l : inv t -> Forall (fun a => length a = hb_evl t) l -> eld t + N.of_nat (length l) <= 2 ^ 32 ->
  exists t', insert_poly t l = Some (t', snd (spec_all (contents t) l)) /\ inv t' /\ contents t' = fst (spec_all (contents t) l) /\
  hb_evl t' = hb_evl t /\ hb_rn t' = hb_rn t.
Proof.
  intros HI HF Hc. unfold insert_poly. destruct (i_esz t HI) as (E0 & _).
  destruct (reserve_ok 64 t (N.of_nat (length l)) HI) as (t1 & E1 & I1 & C1 & V1 & R1 & L1).
  { apply N.le_lt_trans with (2 ^ 32); [assumption|]. cbn [pred]. change (2 ^ N.of_nat 63) with (2 ^ 32 * 2 ^ 31).
    apply N.lt_le_trans with (1 * (2 ^ 32 * 2 ^ 31)); [reflexivity|]. apply N.mul_le_mono_r. lia. } { lia. }
  rewrite E1. cbn [obind].
  assert (Hel : eld t1 = eld t) by (rewrite (eld_contents t1 I1), (eld_contents t HI), C1; reflexivity).
  destruct (insert_all_ok l t1 I1) as (t2 & E2 & I2 & C2 & V2 & R2).
  { rewrite V1. assumption. } { rewrite Hel in *. lia. } { rewrite Hel. lia. }
  exists t2. rewrite E2, C2, V2, R2, C1. auto.
Qed.

(** What a history asks for and what it may return *)
Definition op_ok (evl : nat) (o : op) : Prop :=
  match o with
  | Insert a => length a = evl
  | InsertPoly l => Forall (fun a => length a = evl) l
  | Reinit size => size < 2 ^ 31
  | _ => True
  end.
Definition op_vecs (o : op) : list (list N) := match o with Insert a => [a] | InsertPoly l => l | _ => [] end.
Definition resets (o : op) : bool := match o with Clean | Reinit _ => true | _ => false end.
Definition spec_step (l : list (list N)) (o : op) : list (list N) * list N :=
  if resets o then ([], []) else spec_all l (op_vecs o).
Fixpoint spec_run (l : list (list N)) (ops : list op) : list (list N) * list (list N) :=
  match ops with [] => (l, []) | o :: os => let x := spec_step l o in let y := spec_run (fst x) os in (fst y, snd x :: snd y) end.
Definition nvecs (ops : list op) : nat := length (flat_map op_vecs ops).
Definition reserved (o : op) : bool := match o with Insert _ => false | _ => true end.

Lemma step_ok t o : inv t -> op_ok (hb_evl t) o -> eld t + N.of_nat (length (op_vecs o)) <= 2 ^ 32 ->
  (reserved o = false -> step t o <> None) ->
  exists t', step t o = Some (t', snd (spec_step (contents t) o)) /\ inv t' /\ contents t' = fst (spec_step (contents t) o) /\
  hb_evl t' = hb_evl t /\ hb_rn t' = hb_rn t.
Proof.
  intros HI Ho Hc Hr. destruct o as [a|l| | |size]; cbn [op_ok op_vecs reserved step] in *; unfold spec_step; cbn [resets op_vecs spec_all fst snd].
  - cbn [length] in Hc. specialize (Hr eq_refl).
    destruct (insert t a) as [[t1 r1]|] eqn:E1; cbn [obind] in *; [|contradiction].
    destruct (insert_oob t a HI Ho t1 r1 E1) as [Hin|L]; [lia| |].
    + (* found: no new entry needed *)
      unfold insert in E1. destruct (hash_total t a HI Ho) as (h & Hh & _). rewrite Hh in E1. cbn [obind] in E1. unfold insert_h in E1.
      assert (Hcap' : eld t <= hb_hsz t).
      { destruct (i_esz t HI) as (_ & F1 & F2). destruct (i_ld t HI) as (L1 & L2). destruct (i_b t HI) as (b & Hb & Hsz & _).
        assert (2 ^ b <= 2 ^ 32) by (apply N.pow_le_mono_r; lia). destruct (N.eq_dec (hb_hsz t) (2 ^ 32)); lia. }
      destruct (probe_ok t a h HI Ho Hh Hcap') as [(hm & Ep & H1 & Hn)|(b & s & Ep & _ & _ & _ & _ & _ & _ & Hnin)]; [|contradiction].
      rewrite Ep in E1. injection E1 as <- <-. exists t. unfold spec_insert.
      rewrite (index_of_nth a (contents t) (N.to_nat hm - 1) (i_nd t HI)) by (unfold contents; rewrite nth_error_tl by assumption; exact Hn).
      cbn [fst snd]. split; [repeat f_equal; lia|]. auto.
    + destruct (insert_ok t a HI Ho L) as (t2 & E2 & I2 & C2 & V2 & R2 & _); [lia|].
      rewrite E1 in E2. injection E2 as -> ->. exists t2. auto.
  - apply insert_poly_ok; assumption.
  - destruct (enlarge_ok t HI) as (I1 & C1 & V1 & R1). eexists. split; [reflexivity|]. auto.
  - destruct (clean_ok t HI) as (I1 & C1). eexists. split; [reflexivity|]. auto.
  - destruct (reinitialize_ok t size HI Ho) as (t' & E1 & I1 & C1 & V1 & R1 & _). rewrite E1. cbn [obind]. exists t'. auto.
Qed.

Lemma spec_step_len l o : (length (fst (spec_step l o)) <= length (op_vecs o) + length l)%nat.
Proof. unfold spec_step. destruct (resets o); cbn [fst length]; [lia|]. apply spec_all_len. Qed.

Theorem run_refines ops : forall t t' outs, inv t -> Forall (op_ok (hb_evl t)) ops ->
  eld t + N.of_nat (nvecs ops) <= 2 ^ 32 -> run t ops = Some (t', outs) ->
  inv t' /\ contents t' = fst (spec_run (contents t) ops) /\ outs = snd (spec_run (contents t) ops) /\ hb_evl t' = hb_evl t.
Proof.
  induction ops as [|o os IH]; intros t t' outs HI HF Hc Hr; cbn [run spec_run] in *.
  - injection Hr as <- <-. auto.
  - inversion HF; subst. unfold nvecs in Hc. cbn [flat_map] in Hc. rewrite app_length in Hc. fold (nvecs os) in Hc.
    destruct (step_ok t o HI) as (t1 & E1 & I1 & C1 & V1 & _); [assumption|lia| |].
    { intros _ E. rewrite E in Hr. discriminate. }
    rewrite E1 in Hr. cbn [obind fst snd] in Hr.
    destruct (run t1 os) as [[t2 o2]|] eqn:E2; cbn [obind] in Hr; [|discriminate]. injection Hr as <- <-. cbn [fst snd].
    destruct (IH t1 t2 o2 I1) as (I2 & C2 & O2 & V2).
    { rewrite V1. assumption. }
    { rewrite (eld_contents t1 I1), C1. pose proof (spec_step_len (contents t) o). rewrite (eld_contents t HI) in Hc. lia. }
    { exact E2. }
    rewrite C2, C1, O2, C1, V2, V1. auto.
Qed.

Theorem run_total ops : forall t, inv t -> Forall (op_ok (hb_evl t)) ops -> forallb reserved ops = true ->
  eld t + N.of_nat (nvecs ops) <= 2 ^ 32 -> exists t' outs, run t ops = Some (t', outs).
Proof.
  induction ops as [|o os IH]; intros t HI HF Hres Hc; cbn [run].
  - eauto.
  - inversion HF; subst. cbn [forallb] in Hres. apply andb_prop in Hres as [Hres1 Hres2].
    unfold nvecs in Hc. cbn [flat_map] in Hc. rewrite app_length in Hc. fold (nvecs os) in Hc.
    destruct (step_ok t o HI) as (t1 & E1 & I1 & C1 & V1 & _); [assumption|lia|congruence|].
    rewrite E1. cbn [obind fst snd].
    destruct (IH t1 I1) as (t2 & o2 & E2).
    { rewrite V1. assumption. } { assumption. }
    { rewrite (eld_contents t1 I1), C1. pose proof (spec_step_len (contents t) o). rewrite (eld_contents t HI) in Hc. lia. }
    rewrite E2. cbn [obind]. eauto.
Qed.

(** ** Properties of the specification *)
Lemma spec_insert_ok l a : NoDup l -> let x := spec_insert l a in
  NoDup (fst x) /\ (exists r, fst x = l ++ r) /\ (1 <= N.to_nat (snd x))%nat /\ nth_error (fst x) (N.to_nat (snd x) - 1) = Some a.
Proof.
  intros ND. cbn. unfold spec_insert. destruct (index_of a l) as [i|] eqn:E; cbn [fst snd].
  - split; [assumption|]. split; [exists []; rewrite app_nil_r; reflexivity|]. split; [lia|].
    rewrite Nat2N.id. replace (S i - 1)%nat with i by lia. apply index_of_Some. assumption.
  - split.
    + rewrite <- (rev_involutive (l ++ [a])). apply NoDup_rev. rewrite rev_app_distr. cbn.
      constructor; [rewrite <- in_rev; apply index_of_None; exact E|apply NoDup_rev; assumption].
    + split; [eauto|]. split; [lia|]. rewrite Nat2N.id. rewrite nth_error_app2 by lia. replace (S (length l) - 1 - length l)%nat with O by lia. reflexivity.
Qed.
Lemma spec_all_ok as_ : forall l, NoDup l -> let x := spec_all l as_ in
  NoDup (fst x) /\ (exists r, fst x = l ++ r) /\
  Forall2 (fun a i => (1 <= N.to_nat i)%nat /\ nth_error (fst x) (N.to_nat i - 1) = Some a) as_ (snd x).
Proof.
  induction as_ as [|a r IH]; intros l ND; cbn.
  - split; [assumption|]. split; [exists []; rewrite app_nil_r; reflexivity|]. constructor.
  - destruct (spec_insert_ok l a ND) as (N1 & (r1 & E1) & P1 & Q1). destruct (IH _ N1) as (N2 & (r2 & E2) & F2).
    split; [assumption|]. split; [exists (r1 ++ r2); rewrite E2, E1, app_assoc; reflexivity|].
    constructor; [|exact F2]. split; [assumption|]. rewrite E2. rewrite nth_error_app1; [assumption|]. apply nth_error_Some. rewrite Q1. discriminate.
Qed.

(** every index handed out since the last reset still points at the vector it was handed out for *)
Definition live (l : list (list N)) (ai : list N * N) : Prop :=
  (1 <= N.to_nat (snd ai))%nat /\ nth_error l (N.to_nat (snd ai) - 1) = Some (fst ai).
Lemma live_app l r ai : live l ai -> live (l ++ r) ai.
Proof. intros (H1 & H2). split; [assumption|]. rewrite nth_error_app1; [assumption|]. apply nth_error_Some. rewrite H2. discriminate. Qed.
Lemma Forall2_combine {A B} (P : A * B -> Prop) l m : Forall2 (fun a b => P (a, b)) l m -> Forall P (combine l m) /\ length l = length m.
Proof. induction 1; cbn; [auto|]. destruct IHForall2. split; [constructor; assumption|lia]. Qed.

Theorem spec_run_live ops : forall l, NoDup l -> forallb (fun o => negb (resets o)) ops = true -> let x := spec_run l ops in
  NoDup (fst x) /\ (exists r, fst x = l ++ r) /\ Forall (live (fst x)) (combine (flat_map op_vecs ops) (concat (snd x))) /\
  map (@length _) (snd x) = map (fun o => length (op_vecs o)) ops.
Proof.
  induction ops as [|o os IH]; intros l ND Hr; cbn [spec_run fst snd flat_map concat map].
  - split; [assumption|]. split; [exists []; rewrite app_nil_r; reflexivity|]. split; [constructor|reflexivity].
  - cbn [forallb] in Hr. apply andb_prop in Hr as [Hr1 Hr2]. apply negb_true_iff in Hr1.
    unfold spec_step. rewrite Hr1. destruct (spec_all_ok (op_vecs o) l ND) as (N1 & (r1 & E1) & F1).
    destruct (IH _ N1 Hr2) as (N2 & (r2 & E2) & L2 & M2).
    apply (Forall2_combine (live (fst (spec_all l (op_vecs o))))) in F1. destruct F1 as (F1 & FL).
    split; [assumption|]. split; [exists (r1 ++ r2); rewrite E2, E1, app_assoc; reflexivity|]. split.
    + assert (Hcomb : forall (A B : Type) (x1 x2 : list A) (y1 y2 : list B), length x1 = length y1 -> combine (x1 ++ x2) (y1 ++ y2) = combine x1 y1 ++ combine x2 y2).
      { clear. induction x1 as [|a x1 IH]; intros x2 [|b y1] y2 H; try discriminate; [reflexivity|]. cbn. f_equal. apply IH. cbn in H. lia. }
      rewrite Hcomb by assumption. apply Forall_app. split; [|assumption]. rewrite E2. eapply Forall_impl; [|exact F1]. intros ai. apply live_app.
    + cbn. f_equal; [congruence|assumption].
Qed.

(** ** Products (C14) *)
Lemma wsum_add cnt : forall j rn a b c, (forall i, (j <= i < j + cnt)%nat -> ex c i = ex a i + ex b i) ->
  wsum cnt j rn c = wsum cnt j rn a + wsum cnt j rn b.
Proof.
  induction cnt as [|n IH]; intros j rn a b c H; cbn [wsum]; [reflexivity|].
  rewrite (IH (S j) rn a b c); [|intros; apply H; lia]. rewrite (H j) by lia. lia.
Qed.

Lemma check_insert_hash t a h : hash t a = Some h -> check_insert t a h = insert t a.
Proof.
  intros Hh. unfold check_insert, insert. destruct (N.eqb_spec h 0) as [->|]; [reflexivity|]. rewrite Hh. reflexivity.
Qed.
