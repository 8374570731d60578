(** The multiplication matrix is built correctly. *)
From Coq Require Import ZArith NArith Arith List Bool Lia Sorted Znumtheory.
From Verif Require Import LinSpec MonoSpec MonoSpecProofs HilbSpec GbSpec GbProofs GbIdeal FglmSpec ModInvModel FglmModel MatVecProofs BuildModel StairProofs.
Import ListNotations.
Open Scope nat_scope.

(** * merging a sorted list of terms with the basis *)
Fixpoint lookup (h : bpoly) (m : mono) : option Z :=
  match h with [] => None | t :: r => if mono_dec (snd t) m then Some (fst t) else lookup r m end.
Fixpoint mrow (e : Z -> Z) (h : bpoly) (l : list mono) : list Z :=
  match l with
  | [] => []
  | c :: r => match h with
              | t :: h' => if mono_dec (snd t) c then e (fst t) :: mrow e h' r else 0%Z :: mrow e h r
              | [] => 0%Z :: mrow e h r
              end
  end.
Lemma mrow_len e l : forall h, length (mrow e h l) = length l.
Proof. induction l as [|c l IH]; intros h; [reflexivity|]. cbn [mrow length]. destruct h as [|t h]; cbn [length]; [rewrite IH; reflexivity|]. destruct (mono_dec (snd t) c); cbn [length]; rewrite IH; reflexivity. Qed.
Definition inc (h : bpoly) : Prop := StronglySorted drl_lt (map snd h).
Lemma lookup_none h m : ~ In m (map snd h) -> lookup h m = None.
Proof. induction h as [|t h IH]; intros H; [reflexivity|]. cbn [lookup]. destruct (mono_dec (snd t) m) as [E|E]; [destruct H; left; exact E|]. apply IH. intros K. apply H. right. exact K. Qed.
(** every term is found *)
Lemma mrow_nth e l : StronglySorted drl_lt l -> forall h, inc h -> (forall m, In m (map snd h) -> In m l) ->
  forall j, j < length l -> nth j (mrow e h l) 0%Z = match lookup h (nth j l []) with Some c => e c | None => 0%Z end.
Proof.
  induction 1 as [|c l Hs IH F]; intros h Hh Hin j Hj; [cbn in Hj; lia|]. rewrite Forall_forall in F. cbn [mrow]. destruct h as [|t h].
  - destruct j as [|j]; [reflexivity|]. cbn [nth]. rewrite IH; [reflexivity|constructor|intros m []|cbn [length] in Hj; lia].
  - cbn [lookup]. inversion Hh as [|? ? Hh' Fh]; subst. rewrite Forall_forall in Fh. destruct (mono_dec (snd t) c) as [E|E].
    + destruct j as [|j]; cbn [nth]; [destruct (mono_dec (snd t) c); [reflexivity|contradiction]|]. cbn [length] in Hj. destruct (mono_dec (snd t) (nth j l [])) as [C|_].
      * exfalso. apply (drl_irrefl c). rewrite <- E at 2. rewrite C. apply F. apply nth_In. lia.
      * apply IH; [exact Hh'| |lia]. intros m Hm. destruct (Hin m (or_intror Hm)) as [<-|K]; [|exact K]. exfalso. apply (drl_irrefl (snd t)). rewrite E at 2. apply Fh. exact Hm.
    + destruct j as [|j]; cbn [nth].
      * destruct (mono_dec (snd t) c); [contradiction|]. rewrite lookup_none; [reflexivity|]. intros K. destruct (Hin (snd t) (or_introl eq_refl)) as [C|C]; [congruence|]. apply (drl_irrefl c). eapply drl_trans; [apply F; exact C|apply Fh; exact K].
      * cbn [length] in Hj. rewrite IH; [reflexivity|exact Hh| |lia]. intros m Hm. destruct (Hin m Hm) as [<-|K]; [|exact K]. exfalso. destruct Hm as [Hm|Hm]; [congruence|]. destruct (Hin (snd t) (or_introl eq_refl)) as [C|C]; [congruence|]. apply (drl_irrefl c). eapply drl_trans; [apply F; exact C|apply Fh; exact Hm].
Qed.
Lemma lookup_cf h m : NoDup (map snd h) -> cf h m = match lookup h m with Some c => c | None => 0%Z end.
Proof.
  induction h as [|t h IH]; intros H; [reflexivity|]. cbn [map] in H. inversion H as [|? ? N1 N2]; subst. cbn [cf lookup]. destruct (mono_dec (snd t) m) as [E|E]; [|apply IH; exact N2].
  rewrite IH by exact N2. rewrite lookup_none by (rewrite <- E; exact N1). lia.
Qed.
Lemma lookup_in h m c : lookup h m = Some c -> In (c, m) h.
Proof. induction h as [|t h IH]; [discriminate|]. cbn [lookup]. destruct (mono_dec (snd t) m) as [<-|]; intros E; [left; injection E as <-; destruct t; reflexivity|right; apply IH; exact E]. Qed.
Lemma cf_rev h m : cf (rev h) m = cf h m.
Proof.
  induction h as [|t h IH]; [reflexivity|]. cbn [rev]. assert (A : forall a c, cf (a ++ c) m = (cf a m + cf c m)%Z). { induction a as [|s a IHa]; intros c; [reflexivity|]. cbn [app cf]. rewrite IHa. destruct (mono_dec (snd s) m); lia. }
  rewrite A, IH. cbn [cf]. destruct (mono_dec (snd t) m); lia.
Qed.
Lemma inc_nodup h : inc h -> NoDup (map snd h).
Proof.
  unfold inc. induction 1 as [|c l Hs IH F]; constructor; [|exact IH]. rewrite Forall_forall in F. intros K. exact (drl_irrefl c (F c K)).
Qed.
Lemma copy_nf_loop_ok l : forall h, StronglySorted drl_lt l -> inc h -> (forall m, In m (map snd h) -> In m l) -> copy_nf_loop h l = Some (mrow (fun c => c) h l).
Proof.
  induction l as [|c l IH]; intros h Hs Hh Hin; cbn [copy_nf_loop].
  - destruct h as [|t h]; [reflexivity|]. destruct (Hin (snd t) (or_introl eq_refl)).
  - inversion Hs as [|? ? Hs' F]; subst. rewrite Forall_forall in F. destruct h as [|t h].
    + f_equal. cbn [repeat mrow]. f_equal. clear. induction l as [|c l IH]; [reflexivity|]. cbn [length repeat mrow]. rewrite <- IH. reflexivity.
    + inversion Hh as [|? ? Hh' Fh]; subst. rewrite Forall_forall in Fh. cbn [mrow]. destruct (mono_dec (snd t) c) as [E|E].
      * rewrite IH; [reflexivity|exact Hs'|exact Hh'|]. intros m Hm. destruct (Hin m (or_intror Hm)) as [<-|K]; [|exact K]. exfalso. apply (drl_irrefl (snd t)). rewrite E at 2. apply Fh. exact Hm.
      * rewrite IH; [reflexivity|exact Hs'|exact Hh|]. intros m Hm. destruct (Hin m Hm) as [<-|K]; [|exact K]. exfalso. destruct Hm as [Hm|Hm]; [congruence|]. destruct (Hin (snd t) (or_introl eq_refl)) as [C|C]; [congruence|]. apply (drl_irrefl c). eapply drl_trans; [apply F; exact C|apply Fh; exact Hm].
Qed.
(** the loop over the columns: the leading term is never met *)
Lemma copy_merge_ok p (g : bpoly) lead h l : forall k, rev g = h ++ [lead] -> k <= length h -> ~ In (snd lead) l ->
  copy_merge p g l k = Some (mrow (fun c => (p - c)%Z) (skipn k h) l).
Proof.
  intros k E. assert (Lg : length g = S (length h)). { rewrite <- (rev_length g), E, app_length. cbn [length]. lia. }
  assert (Nt : forall j, j <= length h -> nth_error g (length g - j - 1) = nth_error (h ++ [lead]) j).
  { intros j Hj. rewrite <- E. assert (Hk : j < length g) by lia. rewrite (nth_error_nth' g lead) by lia. rewrite (nth_error_nth' (rev g) lead) by (rewrite rev_length; lia). f_equal. rewrite rev_nth by exact Hk. f_equal. lia. }
  revert k. induction l as [|c l IH]; intros k Hk Hn; [reflexivity|]. cbn [copy_merge]. destruct (Nat.ltb_spec k (length g)) as [_|C]; [|lia]. rewrite Nt by exact Hk.
  destruct (Nat.eq_dec k (length h)) as [->|N1].
  - rewrite nth_error_app2, Nat.sub_diag by lia. cbn [nth_error obind]. destruct (mono_dec (snd lead) c) as [C|_]; [destruct Hn; left; congruence|]. rewrite IH by (try lia; intros K; apply Hn; right; exact K). rewrite skipn_all. reflexivity.
  - rewrite nth_error_app1 by lia. destruct (nth_error h k) as [t|] eqn:Et; [|apply nth_error_None in Et; lia]. cbn [obind]. assert (Es : skipn k h = t :: skipn (S k) h). { clear -Et. revert k Et. induction h as [|s h IHh]; intros k Et; [destruct k; discriminate|]. destruct k; [injection Et as ->; reflexivity|]. cbn [skipn]. apply IHh. exact Et. }
    rewrite Es. cbn [mrow]. assert (Hn' : ~ In (snd lead) l) by (intros K; apply Hn; right; exact K). destruct (mono_dec (snd t) c); [rewrite (IH (S k)) by (lia || exact Hn')|rewrite (IH k) by (lia || exact Hn')]; [reflexivity|]. rewrite Es. reflexivity.
Qed.
Lemma omap_some {A B} (f : A -> option B) (g : A -> B) l : (forall a, In a l -> f a = Some (g a)) -> omap f l = Some (map g l).
Proof. induction l as [|a l IH]; intros H; [reflexivity|]. cbn [omap map]. rewrite (H a) by (left; reflexivity). cbn [obind]. rewrite IH by (intros y Hy; apply H; right; exact Hy). reflexivity. Qed.
Lemma sorted_incl_len (l l' : list mono) : StronglySorted drl_lt l -> StronglySorted drl_lt l' -> (forall m, In m l -> In m l') -> length l = length l' -> l = l'.
Proof.
  intros H H' Hi Hl. apply sorted_same; [exact H|exact H'|]. intros m. split; [apply Hi|]. apply (NoDup_length_incl (l := l) (l' := l')); [|lia|exact Hi].
  clear -H. induction H as [|c l Hs IH F]; constructor; [|exact IH]. rewrite Forall_forall in F. intros K. exact (drl_irrefl c (F c K)).
Qed.

(** * a basis element becomes a row *)
Lemma copy_poly_ok p (G : list bpoly) idx lead (tail : bpoly) l : nth_error G idx = Some (lead :: tail) -> StronglySorted drl_lt l -> inc (rev tail) ->
  (forall m, In m (map snd tail) -> In m l) -> ~ In (snd lead) l -> (Z.of_nat (length (concat G)) <= 2147483647)%Z ->
  copy_poly p G idx l = Some (mrow (fun c => (p - c)%Z) (rev tail) l).
Proof.
  intros Eg Hs Hi Hin Hn Sz. unfold copy_poly. rewrite Eg. cbn [obind]. set (g := lead :: tail). assert (Hin' : forall m, In m (map snd (rev tail)) -> In m l). { intros m Hm. apply Hin. rewrite map_rev in Hm. apply in_rev in Hm. exact Hm. }
  destruct (Nat.eqb_spec (length g) (length l + 1)) as [E|E].
  - assert (St : start_of G idx + length g <= length (concat G)).
    { unfold start_of. rewrite <- (firstn_skipn idx G) at 2. rewrite concat_app, app_length. apply Nat.add_le_mono_l. assert (Es : skipn idx G = g :: skipn (S idx) G). { clear -Eg. revert idx Eg. induction G as [|s G IH]; intros k Et; [destruct k; discriminate|]. destruct k; [injection Et as ->; reflexivity|]. cbn [skipn]. apply IH. exact Et. } rewrite Es. cbn [concat]. rewrite app_length. lia. }
    destruct (Z.leb_spec (Z.of_nat (start_of G idx + length g)) 2147483647) as [_|C]; [|lia].
    assert (Lt : length tail = length l) by (cbn [length] in E; unfold g in E; cbn [length] in E; lia).
    assert (Em : map snd (rev tail) = l). { apply sorted_incl_len; [exact Hi|exact Hs|exact Hin'|rewrite map_length, rev_length; exact Lt]. }
    rewrite (omap_some _ (fun k => (p - nth k (map fst (rev tail)) 0)%Z)).
    + f_equal. unfold g. cbn [length]. replace (S (length tail) - 1) with (length tail) by lia. rewrite <- (rev_length tail). rewrite <- Em. generalize (rev tail). clear. intros h. rewrite <- (map_length fst h). set (e := fun c : Z => (p - c)%Z).
      assert (Q : mrow e h (map snd h) = map e (map fst h)). { induction h as [|t h IH]; [reflexivity|]. cbn [map mrow]. destruct (mono_dec (snd t) (snd t)); [|congruence]. rewrite IH. reflexivity. } rewrite Q. generalize (map fst h). clear. intros l. apply (nth_ext _ _ 0%Z 0%Z); [rewrite !map_length, seq_length; reflexivity|]. intros j Hj. rewrite map_length, seq_length in Hj.
      rewrite (nth_indep _ 0%Z (e (nth 0 l 0%Z))) by (rewrite map_length, seq_length; exact Hj). rewrite (map_nth (fun k => e (nth k l 0%Z)) (seq 0 (length l)) 0). rewrite seq_nth by exact Hj. rewrite (nth_indep (map e l) 0%Z (e 0%Z)) by (rewrite map_length; exact Hj). rewrite map_nth. reflexivity.
    + intros k Hk. apply in_seq in Hk. unfold g in *. cbn [length] in *. assert (K : nth_error (lead :: tail) (S (length tail) - k - 1) = nth_error (rev tail) k).
      { replace (S (length tail) - k - 1) with (S (length tail - S k)) by lia. cbn [nth_error]. rewrite (nth_error_nth' tail lead) by lia. rewrite (nth_error_nth' (rev tail) lead) by (rewrite rev_length; lia). rewrite rev_nth by lia. reflexivity. }
      rewrite K. destruct (nth_error (rev tail) k) as [t|] eqn:Et; [|apply nth_error_None in Et; rewrite rev_length in Et; lia]. cbn [obind]. f_equal. f_equal. rewrite (nth_error_nth (map fst (rev tail)) k 0%Z (x := fst t)); [reflexivity|]. rewrite nth_error_map, Et. reflexivity.
  - rewrite (copy_merge_ok p g lead (rev tail) l 0); [reflexivity|reflexivity|lia|exact Hn].
Qed.

Lemma ofold_app {A B} (f : A -> B -> option B) l l' y : ofold f (l ++ l') y = obind (ofold f l y) (fun z => ofold f l' z).
Proof. revert y. induction l as [|a l IH]; intros y; [reflexivity|]. cbn [app ofold]. destruct (f a y); cbn [obind]; [apply IH|reflexivity]. Qed.
Lemma nth_concat D (rows : list (list Z)) r j : (forall w, In w rows -> length w = D) -> j < D -> nth (r * D + j) (concat rows) 0%Z = nth j (nth r rows []) 0%Z.
Proof.
  revert r. induction rows as [|w rows IH]; intros r H Hj.
  - cbn [concat]. destruct (r * D + j), r, j; reflexivity.
  - cbn [concat]. destruct r as [|r]; cbn [nth Nat.mul].
    + rewrite app_nth1 by (rewrite H by (left; reflexivity); exact Hj). reflexivity.
    + rewrite app_nth2 by (rewrite H by (left; reflexivity); lia). rewrite (H w) by (left; reflexivity). replace (D + r * D + j - D) with (r * D + j) by lia. apply IH; [intros v Hv; apply H; right; exact Hv|exact Hj].
Qed.
Lemma concat_len D (rows : list (list Z)) : (forall w, In w rows -> length w = D) -> length (concat rows) = length rows * D.
Proof. induction rows as [|w rows IH]; intros H; [reflexivity|]. cbn [concat length Nat.mul]. rewrite app_length, IH by (intros v Hv; apply H; right; exact Hv). rewrite (H w) by (left; reflexivity). reflexivity. Qed.
Lemma dst_zero (row : list Z) j : length row - dst_of row <= j -> nth j row 0%Z = 0%Z.
Proof.
  unfold dst_of. intros H. destruct (Nat.lt_ge_cases j (length row)) as [Hj|Hj]; [|apply nth_overflow; exact Hj].
  assert (K : forall (l : list Z) i, i < lead0 l -> nth i l 0%Z = 0%Z). { induction l as [|y l IH]; intros i Hi; [destruct i; reflexivity|]. cbn [lead0] in Hi. destruct (Z.eqb_spec y 0) as [->|]; [|lia]. destruct i; [reflexivity|]. cbn [nth]. apply IH. lia. }
  assert (Ll : lead0 (rev row) <= length row). { rewrite <- (rev_length row). generalize (rev row). clear. induction l as [|y l IH]; cbn [lead0 length]; [lia|]. destruct (y =? 0)%Z; lia. }
  specialize (K (rev row) (length row - 1 - j) ltac:(lia)). rewrite rev_nth in K by lia. replace (length row - S (length row - 1 - j)) with j in K by lia. exact K.
Qed.
Lemma dst_le (row : list Z) : dst_of row <= length row.
Proof. unfold dst_of. rewrite <- (rev_length row). generalize (rev row). clear. induction l as [|y l IH]; cbn [lead0 length]; [lia|]. destruct (y =? 0)%Z; lia. Qed.

(** the normal form of a monomial *)
Definition normal_form (nv : nat) (p : Z) (G : pf -> Prop) (lms : list mono) (m : mono) (h : bpoly) : Prop :=
  (forall t, In t h -> (0 < fst t < p)%Z /\ standard nv lms (snd t)) /\ inc (rev h) /\ ideal nv p G (fun u => (cf [(1%Z, m)] u - cf h u)%Z).
(** what is returned for a list of monomials are their normal forms *)
Definition nf_contract (nv : nat) (p : Z) (G : pf -> Prop) (lms : list mono) (nf : list mono -> option (list bpoly)) : Prop :=
  forall ms hs, Forall (fun m => length m = nv) ms -> nf ms = Some hs -> Forall2 (normal_form nv p G lms) ms hs.

Section Build.
Variables (nv : nat) (p : Z) (lms lmb : list mono) (G : list bpoly) (nf : list mono -> option (list bpoly)) (unstable : Z).
Hypothesis NV : 1 <= nv.
Hypothesis P2 : (2 <= p)%Z.
Hypothesis LL : forall l, In l lms -> length l = nv.
Hypothesis LM : minimal_set lms.
Hypothesis LS : StronglySorted drl_lt lms.
Hypothesis BS : StronglySorted drl_lt lmb.
Hypothesis BI : forall m, In m lmb <-> standard nv lms m.
Hypothesis D1 : 1 <= length lmb.
Hypothesis GS : forall d, d < length lms -> exists tail, nth_error G d = Some ((1%Z, nth d lms []) :: tail) /\ inc (rev tail) /\ forall t, In t tail -> (0 < fst t < p)%Z /\ standard nv lms (snd t).
Hypothesis SZ : (Z.of_nat (length (concat G)) <= 2147483647)%Z.
Notation n := (nv - 1).
Notation x := (xpow nv n 1).
Notation D := (length lmb).
Notation b i := (nth i lmb []).
Notation I := (ideal nv p (pfs G)).
Notation isl := (isl nv lms lmb).
Notation isx := (isx nv lms lmb).
Notation mem := (mem nv lmb).
Notation L := (div_list nv lms).
Notation extra := (filter isx (seq 0 D)).
Lemma lmb_nodup : NoDup lmb.
Proof. clear -BS. induction BS as [|c l Hs IH F]; constructor; [|exact (IH Hs)]. rewrite Forall_forall in F. intros K. exact (drl_irrefl c (F c K)). Qed.
Lemma expand h m : (forall u, In u (map snd h) -> In u lmb) -> sumn D (fun j => (cf h (b j) * cf [(1, b j)] m)%Z) = cf h m.
Proof.
  intros Hin. destruct (in_dec mono_dec m lmb) as [K|K].
  - destruct (in_nth_m _ _ K) as (j0 & Hj & Ej). transitivity (cf h (b j0)); [|rewrite Ej; reflexivity]. rewrite <- (sumn_delta D j0 (fun j => cf h (b j)) Hj). apply sumn_ext. intros i Hi. cbn [cf fst snd]. destruct (Nat.eqb_spec i j0) as [->|N1].
    + destruct (mono_dec (b j0) m); [ring|congruence].
    + destruct (mono_dec (b i) m) as [C|_]; [|ring]. exfalso. apply N1. apply (proj1 (NoDup_nth lmb []) lmb_nodup); [exact Hi|exact Hj|congruence].
  - rewrite sumn_zero_ext.
    + symmetry. assert (Q : ~ In m (map snd h)) by (intros C; apply K, Hin, C). clear -Q. induction h as [|t h IH]; [reflexivity|]. cbn [cf]. destruct (mono_dec (snd t) m) as [E|_]; [destruct Q; left; exact E|]. apply IH. intros C. apply Q. right. exact C.
    + intros i Hi. cbn [cf fst snd]. destruct (mono_dec (b i) m) as [C|_]; [|ring]. destruct K. rewrite <- C. apply nth_In. exact Hi.
Qed.
Definition row_good (i : nat) (r : list Z) : Prop :=
  length r = D /\ (forall c, In c r -> (0 <= c < p)%Z) /\ I (fun m => (cf [(1, mmul x (b i))] m - sumn D (fun j => nth j r 0 * cf [(1, b j)] m))%Z).
Lemma mrow_in e h c : In c (mrow e h lmb) -> c = 0%Z \/ exists t, In t h /\ c = e (fst t).
Proof.
  generalize lmb as l. intros l. revert h. induction l as [|y l IH]; intros h H; [destruct H|]. cbn [mrow] in H. destruct h as [|t h].
  - destruct H as [<-|H]; [left; reflexivity|]. apply IH in H as [?|(t & [] & _)]. left. assumption.
  - destruct (mono_dec (snd t) y); destruct H as [<-|H]; [right; exists t; split; [left|]; reflexivity| |left; reflexivity|].
    + apply IH in H as [?|(s & Hs & E)]; [left; assumption|right; exists s; split; [right; exact Hs|exact E]].
    + apply IH in H as [?|(s & Hs & E)]; [left; assumption|right; exists s; split; [exact Hs|exact E]].
Qed.
Lemma lead_row d i : i < D -> d < length lms -> nth d lms [] = mmul x (b i) -> exists r, copy_poly p G d lmb = Some r /\ row_good i r.
Proof.
  intros Hi Hd El. destruct (GS d Hd) as (tail & Eg & Hinc & Ht). assert (Hin : forall m, In m (map snd tail) -> In m lmb). { intros m Hm. apply in_map_iff in Hm as (t & <- & Hm). apply BI. apply Ht. exact Hm. }
  assert (Nl : ~ In (nth d lms []) lmb). { intros C. apply BI in C as [_ C]. apply (C _ (nth_In lms [] Hd)). apply mdvd_refl. }
  eexists. split; [apply (copy_poly_ok p G d _ tail lmb Eg BS Hinc Hin Nl SZ)|]. split; [apply mrow_len|]. split.
  - intros c Hc. apply mrow_in in Hc as [->|(t & Hin' & ->)]; [lia|]. apply in_rev in Hin'. destruct (Ht t Hin'). lia.
  - eapply ls_eq; [apply (ideal_gen nv p (pfs G) (cf ((1%Z, nth d lms []) :: tail))); exists ((1%Z, nth d lms []) :: tail); split; [eapply nth_error_In; exact Eg|reflexivity]|].
    intros m Hm. cbn [cf fst snd]. rewrite <- El. assert (Es : sumn D (fun j => (nth j (mrow (fun c => (p - c)%Z) (rev tail) lmb) 0 * cf [(1, b j)] m)%Z) = sumn D (fun j => (match lookup (rev tail) (b j) with Some c => p - c | None => 0 end * cf [(1, b j)] m)%Z)).
    { apply sumn_ext. intros j Hj. rewrite mrow_nth; [reflexivity|exact BS|exact Hinc| |exact Hj]. intros u Hu. apply Hin. rewrite map_rev in Hu. apply in_rev in Hu. exact Hu. }
    assert (Eq : eqp p (sumn D (fun j => (nth j (mrow (fun c => (p - c)%Z) (rev tail) lmb) 0 * cf [(1, b j)] m)%Z)) (- cf tail m)).
    { rewrite Es. rewrite <- (expand tail m Hin). replace (- sumn D (fun j => (cf tail (b j) * cf [(1, b j)] m)%Z))%Z with (sumn D (fun j => (-1 * (cf tail (b j) * cf [(1, b j)] m))%Z)) by (rewrite sumn_scal; ring). apply sumn_eqp. intros j Hj. rewrite <- (cf_rev tail). rewrite (lookup_cf (rev tail) _ (inc_nodup _ Hinc)). destruct (lookup (rev tail) (b j)) as [c|]; [exists (cf [(1%Z, b j)] m); ring|exists 0%Z; ring]. }
    cbn [cf fst snd] in Eq |- *. destruct Eq as [w Hw]. exists w. destruct (mono_dec (nth d lms []) m); lia.
Qed.
Lemma nf_row i h : i < D -> normal_form nv p (pfs G) lms (mmul x (b i)) h -> exists r, copy_nf h lmb = Some r /\ row_good i r.
Proof.
  intros Hi (Ht & Hinc & Id). assert (Hin : forall m, In m (map snd h) -> In m lmb). { intros m Hm. apply in_map_iff in Hm as (t & <- & Hm). apply BI. apply Ht. exact Hm. }
  assert (Hin' : forall m, In m (map snd (rev h)) -> In m lmb). { intros m Hm. apply Hin. rewrite map_rev in Hm. apply in_rev in Hm. exact Hm. }
  eexists. split; [apply (copy_nf_loop_ok lmb (rev h) BS Hinc Hin')|]. split; [apply mrow_len|]. split.
  - intros c Hc. apply mrow_in in Hc as [->|(t & Hi' & ->)]; [lia|]. apply in_rev in Hi'. destruct (Ht t Hi'). lia.
  - eapply ls_eq; [exact Id|]. intros m Hm. assert (Es : sumn D (fun j => (nth j (mrow (fun c => c) (rev h) lmb) 0 * cf [(1, b j)] m)%Z) = cf h m); [|rewrite Es; reflexivity].
    rewrite <- (expand h m Hin). apply sumn_ext. intros j Hj. rewrite mrow_nth; [|exact BS|exact Hinc|exact Hin'|exact Hj]. rewrite <- (cf_rev h). rewrite (lookup_cf (rev h) _ (inc_nodup _ Hinc)). destruct (lookup (rev h) (b j)); reflexivity.
Qed.
Variable nfs : list bpoly.
Hypothesis NFS : Forall2 (normal_form nv p (pfs G) lms) (map (fun i => mmul x (b i)) extra) nfs.
Definition rowof (i : nat) : list Z :=
  if isl i then match copy_poly p G (nth (length (filter isl (seq 0 i))) L 0) lmb with Some r => r | None => [] end
  else match nth_error nfs (length (filter isx (seq 0 i))) with
       | Some h => match copy_nf h lmb with Some r => r | None => [] end
       | None => [] end.
Definition nmem (i : nat) : bool := negb (mem i).
Lemma nodup_app2 {A} (l l' : list A) : NoDup l -> NoDup l' -> (forall k, In k l -> In k l' -> False) -> NoDup (l ++ l').
Proof. intros H H' K. induction H as [|y l N H IH]; [exact H'|]. cbn [app]. constructor; [rewrite in_app_iff; intros [C|C]; [exact (N C)|exact (K y (or_introl eq_refl) C)]|]. apply IH. intros k Hk. apply K. right. exact Hk. Qed.
Definition posof (i : nat) : nat := match member_xxn nv lmb i with Some q => q | None => 0 end.
Definition state (i : nat) : bst := {| b_triv := map (fun k => (k, posof k)) (filter mem (seq 0 i)); b_dense := map (fun k => (k, rowof k)) (filter nmem (seq 0 i));
  b_cnt := length (filter isl (seq 0 i)); b_nf := length (filter isx (seq 0 i)) |}.
Lemma F2_nth {A B} (P : A -> B -> Prop) l l' k a : Forall2 P l l' -> nth_error l k = Some a -> exists c, nth_error l' k = Some c /\ P a c.
Proof. intros H. revert k. induction H as [|u v l l' H1 H2 IH]; intros k E; [destruct k; discriminate|]. destruct k; [injection E as ->; exists v; split; [reflexivity|exact H1]|]. apply IH. exact E. Qed.
Lemma nmem_count i : i <= D -> length (filter nmem (seq 0 i)) = length (filter isl (seq 0 i)) + length (filter isx (seq 0 i)).
Proof.
  intros Hi. induction i as [|i IH]; [reflexivity|]. rewrite !filter_seq_S, !app_length, IH by lia. assert (EX : isx i = negb (mem i) && negb (isl i)) by reflexivity. rewrite EX. assert (EN : nmem i = negb (mem i)) by reflexivity. rewrite EN. pose proof (isl_mem nv NV lms lmb BS BI i ltac:(lia)) as K. destruct (isl i) eqn:E; [rewrite (K eq_refl); cbn; lia|]. destruct (mem i); cbn; lia.
Qed.
Lemma total_count : length (filter mem (seq 0 D)) + (length L + length extra) = D.
Proof. pose proof (three_way nv NV lms lmb BS BI) as T. rewrite (lead_count nv NV lms lmb LL LM LS BS BI) in T. lia. Qed.
Lemma fill_ok i : i <= D -> ofold (fill_step nv p lmb lms G extra nfs) (seq 0 i) {| b_triv := []; b_dense := []; b_cnt := O; b_nf := O |} = Some (state i) /\ forall k, k < i -> mem k = false -> row_good k (rowof k).
Proof.
  induction i as [|i IH]; intros Hi; [split; [reflexivity|intros; lia]|]. destruct (IH ltac:(lia)) as [E Rg]. clear IH. rewrite seq_S, ofold_app, E. cbn [obind ofold Nat.add]. unfold fill_step. cbn [b_triv b_dense b_cnt b_nf state]. rewrite !map_length. pose proof total_count as T.
  assert (Es : forall f, filter f (seq 0 (S i)) = filter f (seq 0 i) ++ (if f i then [i] else [])) by (intros; apply filter_seq_S).
  unfold state at 1. rewrite !Es. assert (EX : isx i = negb (mem i) && negb (isl i)) by reflexivity. rewrite EX. assert (EN : nmem i = negb (mem i)) by reflexivity. rewrite EN. destruct (member_xxn nv lmb i) as [q|] eqn:Em.
  - assert (M1 : mem i = true) by (unfold StairProofs.mem; rewrite Em; reflexivity). assert (I0 : isl i = false). { destruct (isl i) eqn:C; [|reflexivity]. apply (isl_mem nv NV lms lmb BS BI i ltac:(lia)) in C. congruence. }
    pose proof (filter_seq_lt mem D i ltac:(lia) M1). destruct (Nat.ltb_spec (length (filter mem (seq 0 i))) (D - (length L + length extra))) as [_|C]; [|lia]. cbn [obind]. rewrite M1, I0. cbn [negb andb]. assert (EP : posof i = q) by (unfold posof; rewrite Em; reflexivity). rewrite !app_nil_r, map_app. cbn [map]. rewrite EP. split; [reflexivity|]. intros k Hk Hm. apply Rg; [|exact Hm]. destruct (Nat.eq_dec k i) as [->|]; [congruence|lia].
  - assert (M0 : mem i = false) by (unfold StairProofs.mem; rewrite Em; reflexivity). assert (N1 : nmem i = true) by (unfold nmem; rewrite M0; reflexivity). pose proof (filter_seq_lt nmem D i ltac:(lia) N1) as W. rewrite (nmem_count D) in W by lia. rewrite (lead_count nv NV lms lmb LL LM LS BS BI) in W.
    destruct (Nat.ltb_spec (length (filter nmem (seq 0 i))) (length L + length extra)) as [_|C]; [|lia]. rewrite (nth_error_nth' lmb []) by lia. cbn [obind]. destruct (div_at nv NV lms lmb LL LM LS BS BI i ltac:(lia) M0) as (d & Ed & Hd & Eq & Hl). rewrite Ed. cbn [obind]. rewrite (nth_error_nth' lms [] Hd). cbn [obind]. rewrite Eq, M0. cbn [negb andb].
    destruct (isl i) eqn:E1; cbn [negb].
    + destruct (Hl eq_refl) as [Ed' El]. destruct (lead_row d i ltac:(lia) Hd El) as (r & Er & Gr). rewrite Er. cbn [obind]. pose proof (filter_seq_lt isl D i ltac:(lia) E1) as W1. rewrite (lead_count nv NV lms lmb LL LM LS BS BI) in W1. destruct (Nat.ltb_spec (length L) (S (length (filter isl (seq 0 i))))) as [C|_]; [lia|]. assert (ER : rowof i = r) by (unfold rowof; rewrite E1, (nth_error_nth _ _ 0 Ed'), Er; reflexivity). cbn [obind]. rewrite !map_app. cbn [map]. rewrite ER, !app_nil_r, app_length. cbn [length]. rewrite Nat.add_1_r. split; [reflexivity|].
      intros k Hk Hm. destruct (Nat.eq_dec k i) as [->|]; [|apply Rg; [lia|exact Hm]]. rewrite ER. exact Gr.
    + assert (X1 : isx i = true) by (rewrite EX, M0; reflexivity). pose proof (filter_seq_nth isx D i ltac:(lia) X1) as Q. rewrite nth_error_app1 by (apply nth_error_Some; congruence). rewrite Q. cbn [obind]. rewrite Nat.eqb_refl.
      assert (Q' : nth_error (map (fun i => mmul x (b i)) extra) (length (filter isx (seq 0 i))) = Some (mmul x (b i))) by (rewrite nth_error_map, Q; reflexivity). destruct (F2_nth _ _ _ _ _ NFS Q') as (h & Eh & Nh). rewrite Eh. cbn [obind]. destruct (nf_row i h ltac:(lia) Nh) as (r & Er & Gr). rewrite Er. cbn [obind]. pose proof (filter_seq_lt isx D i ltac:(lia) X1) as W1. destruct (Nat.ltb_spec (length extra) (S (length (filter isx (seq 0 i))))) as [C|_]; [lia|].
      assert (ER : rowof i = r) by (unfold rowof; rewrite E1, Eh, Er; reflexivity). cbn [obind]. rewrite !map_app. cbn [map]. rewrite ER, !app_nil_r, app_length. cbn [length]. rewrite Nat.add_1_r. split; [reflexivity|]. intros k Hk Hm. destruct (Nat.eq_dec k i) as [->|]; [|apply Rg; [lia|exact Hm]]. rewrite ER. exact Gr.
Qed.
Definition Mx : mat := fun i j => if mem i then (if j =? posof i then 1%Z else 0%Z) else nth j (rowof i) 0%Z.
Definition the_matrix : sp_mat := {| m_ncols := D; m_nrows := length L + length extra; m_dense := concat (map rowof (filter nmem (seq 0 D)));
  m_triv_idx := filter mem (seq 0 D); m_triv_pos := map posof (filter mem (seq 0 D)); m_dense_idx := filter nmem (seq 0 D); m_dst := map (fun i => dst_of (rowof i)) (filter nmem (seq 0 D)) |}.
Hypothesis DS : (Z.of_nat D < 2 ^ 32)%Z.
Hypothesis RS : (Z.of_nat (length L + length extra) * Z.of_nat D <= 2 ^ 32)%Z.
Lemma posof_ok i : i < D -> mem i = true -> posof i < D /\ b (posof i) = mmul x (b i).
Proof.
  intros Hi Hm. pose proof (member_ok nv NV lms lmb BS BI i Hi) as K. unfold StairProofs.mem in Hm. unfold posof. destruct (member_xxn nv lmb i) as [q|]; [destruct K; split; [lia|assumption]|discriminate].
Qed.
Lemma nmem_total : length (filter nmem (seq 0 D)) = length L + length extra.
Proof. rewrite (nmem_count D (Nat.le_refl _)). rewrite (lead_count nv NV lms lmb LL LM LS BS BI). reflexivity. Qed.
Lemma in_filt f i : In i (filter f (seq 0 D)) -> i < D /\ f i = true.
Proof. intros H. apply filter_In in H as [H1 H2]. apply in_seq in H1. split; [lia|exact H2]. Qed.
Lemma nth_filt f r : r < length (filter f (seq 0 D)) -> nth r (filter f (seq 0 D)) 0 < D /\ f (nth r (filter f (seq 0 D)) 0) = true.
Proof. intros H. apply in_filt. apply nth_In. exact H. Qed.
Lemma row_rep k : k < D -> nmem k = true -> row_good k (rowof k).
Proof. intros Hk Hn. apply (proj2 (fill_ok D (Nat.le_refl _)) k Hk). unfold nmem in Hn. destruct (mem k); [discriminate|reflexivity]. Qed.
Lemma matrix_represents : represents p the_matrix Mx.
Proof.
  pose proof total_count as T. pose proof nmem_total as N0. assert (RL : forall w, In w (map rowof (filter nmem (seq 0 D))) -> length w = D). { intros w Hw. apply in_map_iff in Hw as (k & <- & Hk). apply in_filt in Hk as [Hk Hn]. apply row_rep; assumption. }
  assert (NR : forall r, r < length L + length extra -> nth r (map rowof (filter nmem (seq 0 D))) [] = rowof (nth r (filter nmem (seq 0 D)) 0)). { intros r Hr. rewrite (nth_indep _ [] (rowof 0)) by (rewrite map_length; lia). apply map_nth. }
  assert (ND : forall r, r < length L + length extra -> nth r (map (fun i => dst_of (rowof i)) (filter nmem (seq 0 D))) 0 = dst_of (rowof (nth r (filter nmem (seq 0 D)) 0))). { intros r Hr. apply (nth_error_nth _ _ 0). rewrite nth_error_map. rewrite (nth_error_nth' _ 0) by lia. reflexivity. }
  constructor; cbn [the_matrix m_ncols m_nrows m_dense m_triv_idx m_triv_pos m_dense_idx m_dst].
  - lia.
  - exact RS.
  - exact DS.
  - rewrite (concat_len D) by exact RL. rewrite map_length. lia.
  - intros c Hc. apply in_concat in Hc as (w & Hw & Hc). apply in_map_iff in Hw as (k & <- & Hk). apply in_filt in Hk as [Hk Hn]. exact (proj1 (proj2 (row_rep k Hk Hn)) c Hc).
  - rewrite map_length. lia.
  - lia.
  - exact N0.
  - rewrite map_length. exact N0.
  - apply nodup_app2; [apply NoDup_filter, seq_NoDup|apply NoDup_filter, seq_NoDup|]. intros k H1 H2. apply in_filt in H1 as [_ H1]. apply in_filt in H2 as [_ H2]. unfold nmem in H2. rewrite H1 in H2. discriminate.
  - intros k Hk. apply in_app_iff in Hk as [Hk|Hk]; apply in_filt in Hk; lia.
  - intros k Hk. apply in_map_iff in Hk as (q & <- & Hq). apply in_filt in Hq as [H1 H2]. apply posof_ok; assumption.
  - intros t j Ht Hj. assert (Ht' : t < length (filter mem (seq 0 D))) by lia. destruct (nth_filt mem t Ht') as [_ Hm]. unfold Mx. rewrite Hm. rewrite (nth_indep (map posof _) 0 (posof 0)) by (rewrite map_length; exact Ht'). rewrite map_nth. reflexivity.
  - intros r j Hr Hj. destruct (nth_filt nmem r ltac:(lia)) as [_ Hn]. unfold Mx. unfold nmem in Hn at 1. apply negb_true_iff in Hn. rewrite Hn. rewrite nth_concat by (first [exact RL|exact Hj]). rewrite NR by exact Hr. reflexivity.
  - intros r j Hr Hj. destruct (nth_filt nmem r ltac:(lia)) as [Hk Hn]. rewrite nth_concat by (first [exact RL|lia]). rewrite NR by exact Hr. apply dst_zero. rewrite (proj1 (row_rep _ Hk Hn)). rewrite (ND r Hr) in Hj. lia.
  - intros r Hr. destruct (nth_filt nmem r ltac:(lia)) as [Hk Hn]. rewrite (ND r Hr). pose proof (dst_le (rowof (nth r (filter nmem (seq 0 D)) 0))) as W. rewrite (proj1 (row_rep _ Hk Hn)) in W. exact W.
Qed.
Lemma b_zero : b 0 = mone nv.
Proof.
  assert (K : In (mone nv) lmb). { apply BI. split; [apply repeat_length|]. intros l Hl Hd. pose proof (b_std nv lms lmb BI 0 ltac:(lia)) as [Lb Sb]. apply (Sb l Hl). intros i. specialize (Hd i). unfold mone in Hd. replace (ex (repeat 0%N nv) i) with 0%N in Hd; [lia|]. unfold ex. clear. revert i. induction nv as [|k IH]; intros i; destruct i; cbn; auto. }
  destruct (in_nth_m _ _ K) as (j & Hj & Ej). destruct j as [|j]; [exact Ej|]. pose proof (sorted_nth lmb [] 0 (S j) BS ltac:(lia) Hj) as W. rewrite Ej in W. destruct (mono_dec (b 0) (mone nv)) as [E|N1]; [exact E|]. exfalso. apply (drl_irrefl (b 0)). apply (drl_trans _ (mone nv)); [exact W|]. apply drl_one; [apply (b_len nv lms lmb BI 0); lia|exact N1].
Qed.
Lemma matrix_mult : mult_matrix nv p (pfs G) D (fun i => cf [(1%Z, b i)]) Mx.
Proof.
  split; [intros m; rewrite b_zero; reflexivity|]. intros i Hi. assert (PM : forall m, length m = nv -> GbSpec.pmul x (cf [(1%Z, b i)]) m = cf [(1%Z, mmul x (b i))] m). { intros m Hm. rewrite <- (cf_shift nv x [(1%Z, b i)] m); [reflexivity|apply var_len|intros t [<-|[]]; apply (b_len nv lms lmb BI i Hi)|exact Hm]. }
  destruct (mem i) eqn:E.
  - destruct (posof_ok i Hi E) as [Hq Eq]. eapply ls_eq; [apply ls_zero|]. intros m Hm. cbv beta. rewrite (PM m Hm). unfold Mx. rewrite E. rewrite (sumn_ext D _ (fun j => if j =? posof i then cf [(1%Z, b j)] m else 0%Z)) by (intros j Hj; cbv beta; destruct (j =? posof i); lia). rewrite (sumn_delta D (posof i) (fun j => cf [(1%Z, b j)] m) Hq), Eq. rewrite Z.sub_diag. reflexivity.
  - assert (Hn : nmem i = true) by (unfold nmem; rewrite E; reflexivity). eapply ls_eq; [exact (proj2 (proj2 (row_rep i Hi Hn)))|]. intros m Hm. cbv beta. rewrite (PM m Hm). unfold Mx. rewrite E. reflexivity.
Qed.
End Build.

Lemma bump_mul nv a : 1 <= nv -> length a = nv -> map (fun k => if k =? nv - 1 then (ex a k + 1)%N else ex a k) (seq 0 nv) = mmul (xpow nv (nv - 1) 1) a.
Proof.
  intros NV La. apply (nth_ext _ _ 0%N 0%N); [rewrite map_length, seq_length; symmetry; apply xm_len; assumption|]. intros i Hi. rewrite map_length, seq_length in Hi. change (nth i (mmul (xpow nv (nv - 1) 1) a) 0%N) with (ex (mmul (xpow nv (nv - 1) 1) a) i). rewrite ex_xm by assumption.
  rewrite (nth_error_nth _ _ 0%N (x := if i =? nv - 1 then (ex a i + 1)%N else ex a i)); [destruct (i =? nv - 1); lia|]. rewrite nth_error_map. rewrite (nth_error_nth' _ 0) by (rewrite seq_length; exact Hi). cbn [option_map]. rewrite seq_nth by exact Hi. reflexivity.
Qed.
Lemma omap_all {A B} (f : A -> option B) (g : A -> B) l : (forall y, In y l -> f y = Some (g y)) -> omap f l = Some (map g l).
Proof. induction l as [|y l IH]; intros H; [reflexivity|]. cbn [omap map]. rewrite (H y) by (left; reflexivity). cbn [obind]. rewrite IH by (intros z Hz; apply H; right; exact Hz). reflexivity. Qed.

(** The condition on the size of the matrix: less than 2^32 columns and at most 2^32 entries in the rows that are stored *)
Definition size_ok (nv : nat) (lms lmb : list mono) : Prop :=
  (Z.of_nat (length lmb) < 2 ^ 32)%Z /\
  (Z.of_nat (length (filter (nmem nv lmb) (seq 0 (length lmb)))) * Z.of_nat (length lmb) <= 2 ^ 32)%Z.
Lemma build_ok nv p (lms lmb : list mono) (G : list bpoly) nf unstable : 1 <= nv -> (2 <= p)%Z -> (forall l, In l lms -> length l = nv) -> minimal_set lms ->
  StronglySorted drl_lt lms -> StronglySorted drl_lt lmb -> (forall m, In m lmb <-> standard nv lms m) -> 1 <= length lmb ->
  (forall d, d < length lms -> exists tail : bpoly, nth_error G d = Some ((1%Z, nth d lms []) :: tail) /\ inc (rev tail) /\ forall t, In t tail -> (0 < fst t < p)%Z /\ standard nv lms (snd t)) ->
  (Z.of_nat (length (concat G)) <= 2147483647)%Z -> nf_contract nv p (pfs G) lms nf -> size_ok nv lms lmb ->
  if threshold unstable (length lmb - length (div_list nv lms)) <? length (filter (isx nv lms lmb) (seq 0 (length lmb)))
  then build_matrixn nv p unstable nf lmb lms G = Some None
  else (let ms := map (fun i => mmul (xpow nv (nv - 1) 1) (nth i lmb [])) (filter (isx nv lms lmb) (seq 0 (length lmb))) in
        ms <> [] /\ nf ms = None /\ build_matrixn nv p unstable nf lmb lms G = None) \/
    exists m M, build_matrixn nv p unstable nf lmb lms G = Some (Some m) /\ m_ncols m = length lmb /\ represents p m M /\ mult_matrix nv p (pfs G) (length lmb) (fun i => cf [(1%Z, nth i lmb [])]) M.
Proof.
  intros NV P2 LL LM LS BS BI D1 GS SZ NF [DS RS]. pose proof (total_count nv lms lmb G NV LL LM LS BS BI D1) as T. pose proof (lead_some nv NV lms lmb LL BS BI D1) as L1. pose proof (nmem_total nv lms lmb G NV LL LM LS BS BI D1) as NT.
  unfold build_matrixn. destruct (Nat.ltb_spec (length lmb) (length (div_list nv lms))) as [C|_]; [lia|]. destruct (Nat.eqb_spec (length (div_list nv lms)) 0) as [C|_]; [lia|]. cbn [orb andb]. rewrite (classify_ok nv NV lms lmb LL LM LS BS BI). cbn [obind snd].
  destruct (threshold unstable (length lmb - length (div_list nv lms)) <? length (filter (isx nv lms lmb) (seq 0 (length lmb)))); [reflexivity|].
  set (extra := filter (isx nv lms lmb) (seq 0 (length lmb))) in *.
  rewrite (omap_all _ (fun i => mmul (xpow nv (nv - 1) 1) (nth i lmb [])) extra).
  2:{ intros i Hi. apply filter_In in Hi as [Hi _]. apply in_seq in Hi. rewrite (nth_error_nth' lmb []) by lia. cbn [obind]. f_equal. apply bump_mul; [exact NV|]. apply (b_len nv lms lmb BI). lia. }
  set (call := match map (fun i => mmul (xpow nv (nv - 1) 1) (nth i lmb [])) extra with [] => Some [] | _ :: _ => nf (map (fun i => mmul (xpow nv (nv - 1) 1) (nth i lmb [])) extra) end).
  assert (Split : (map (fun i => mmul (xpow nv (nv - 1) 1) (nth i lmb [])) extra <> [] /\ nf (map (fun i => mmul (xpow nv (nv - 1) 1) (nth i lmb [])) extra) = None /\ call = None) \/ exists nfs, call = Some nfs /\ Forall2 (normal_form nv p (pfs G) lms) (map (fun i => mmul (xpow nv (nv - 1) 1) (nth i lmb [])) extra) nfs).
  { unfold call. destruct (map (fun i => mmul (xpow nv (nv - 1) 1) (nth i lmb [])) extra) as [|y ms] eqn:Em; [right; exists []; split; [reflexivity|constructor]|]. rewrite <- Em. destruct (nf (map (fun i => mmul (xpow nv (nv - 1) 1) (nth i lmb [])) extra)) as [nfs|] eqn:En; [right|left; split; [rewrite Em; discriminate|split; reflexivity]]. exists nfs. split; [reflexivity|]. apply NF; [|exact En]. apply Forall_forall. intros m Hm. apply in_map_iff in Hm as (i & <- & Hi). apply filter_In in Hi as [Hi _]. apply in_seq in Hi. apply xm_len; [exact NV|]. apply (b_len nv lms lmb BI). lia. }
  destruct Split as [(Q1 & Q2 & Q3)|(nfs & En & NFS)]; [left; split; [exact Q1|split; [exact Q2|cbv zeta; unfold obind at 1; cbv zeta; unfold obind at 1; match goal with |- context[match ?t with Some _ => _ | None => None end] => change t with call end; rewrite Q3; reflexivity]]|right]. cbv zeta. unfold obind at 1. cbv zeta. unfold obind at 1. match goal with |- context[match ?t with Some _ => _ | None => None end] => change t with call end. rewrite En. destruct (Nat.ltb_spec (length lmb) (length (div_list nv lms) + length extra)) as [C|_]; [lia|].
  destruct (fill_ok nv p lms lmb G NV P2 LL LM LS BS BI D1 GS SZ nfs NFS (length lmb) (Nat.le_refl _)) as [EF _]. fold extra in EF. rewrite EF. cbn [obind]. unfold state. cbn [b_triv b_dense]. rewrite !map_length.
  replace (length lmb - (length (div_list nv lms) + length extra) - length (filter (mem nv lmb) (seq 0 (length lmb)))) with 0 by lia. replace (length (div_list nv lms) + length extra - length (filter (nmem nv lmb) (seq 0 (length lmb)))) with 0 by (rewrite NT; fold extra; lia).
  cbn [repeat]. rewrite !app_nil_r, !map_map. cbn [fst snd]. rewrite !map_id.
  exists (the_matrix nv p lms lmb G nfs), (Mx nv p lms lmb G nfs). split; [unfold the_matrix; fold extra; reflexivity|]. split; [reflexivity|]. rewrite NT in RS. split; [apply (matrix_represents nv p lms lmb G NV P2 LL LM LS BS BI D1 GS SZ nfs NFS DS RS)|apply (matrix_mult nv p lms lmb G NV P2 LL LM LS BS BI D1 GS SZ nfs NFS RS)].
Qed.
