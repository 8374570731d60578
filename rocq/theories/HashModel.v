(** Model of the monomial hash table. Source: /repo/src/neogb/hash.c. *)
From Coq Require Import ZArith NArith Arith List Bool Lia.
From Verif Require Import ModInvModel MonoModel.
Import ListNotations.
Open Scope N_scope.

(** ht_t, data.h l.122-145. [hb_ev] lists the exponent vectors 0 .. eld-1 (entry 0 is never used), [hb_val] the stored
    hash values of the same entries; eld is their number. [hb_hmap] is the array hmap of hb_hsz entries, accessed with
    a bounds test. hb_rn are the random multipliers. Of hd_t the fields sdm and deg are functions of the vector
    (MonoModel) and idx is not touched here, so they are left out. Failing allocations are not modelled. *)
Record tab := { hb_evl : nat; hb_rn : list N; hb_esz : N; hb_hsz : N; hb_hmap : N -> N;
                hb_ev : list (list N); hb_val : list N }.
Definition eld (t : tab) : N := N.of_nat (length (hb_ev t)).

Definition hm_rd (t : tab) (k : N) : option N := if k <? hb_hsz t then Some (hb_hmap t k) else None.
Definition fset (f : N -> N) (k x : N) : N -> N := fun j => if j =? k then x else f j.

(** hash.c l.836-838: [h += rn[j] * a[j]] in uint32_t, for j < evl. *)
Fixpoint hash_loop (cnt j : nat) (rn a : list N) (h : N) : option N :=
  match cnt with
  | O => Some h
  | S c => let? r := rd rn j in let? x := rd a j in
           hash_loop c (S j) rn a ((h + r * x) mod 2 ^ 32)
  end.
Definition hash (t : tab) (a : list N) : option N := hash_loop (hb_evl t) 0 (hb_rn t) a 0.

(** hash.c l.852-861: pairwise equality test of exponent vectors. *)
Fixpoint eq_pairs (cnt j : nat) (a e : list N) : option bool :=
  match cnt with
  | O => Some true
  | S c => let? a0 := rd a j in let? e0 := rd e j in
           if negb (a0 =? e0) then Some false else
           let? a1 := rd a (j + 1) in let? e1 := rd e (j + 1) in
           if negb (a1 =? e1) then Some false else eq_pairs c (j + 2) a e
  end.
Definition eq_ev (evl : nat) (a e : list N) : option bool :=
  let? r := eq_pairs (evl / 2) 0 a e in
  if r then let? x := rd a (evl - 1) in let? y := rd e (evl - 1) in Some (x =? y) else Some false.

(** The probing loop, hash.c l.840-862 (also l.724-750, 998-1024, 1180-1206). The [goto restart] after [i++] is the
    next iteration. [Found]: index of an equal vector. [Free]: the value of k after the loop, either an empty slot
    or, when [cnt] iterations are used up, the last slot looked at. *)
Inductive probed := Found (hm : N) | Free (k : N).
Fixpoint probe (cnt : nat) (i k : N) (t : tab) (h : N) (a : list N) : option probed :=
  match cnt with
  | O => Some (Free k)
  | S c =>
      let k := N.land (k + i) ((hb_hsz t - 1) mod 2 ^ 32) in
      let? hm := hm_rd t k in
      if hm =? 0 then Some (Free k) else
      let? v := rd (hb_val t) (N.to_nat hm) in
      if negb (v =? h) then probe c (i + 1) k t h a else
      let? e := rd (hb_ev t) (N.to_nat hm) in
      let? q := eq_ev (hb_evl t) a e in
      if q then Some (Found hm) else probe c (i + 1) k t h a
  end.

(** hash.c l.864-876: add at slot k; [pos] is eld truncated to 32 bits; writing entry eld needs eld < esz. *)
Definition add_entry (t : tab) (k h : N) (a : list N) : option (tab * N) :=
  if eld t <? hb_esz t then
    if k <? hb_hsz t then
      let pos := eld t mod 2 ^ 32 in
      Some ({| hb_evl := hb_evl t; hb_rn := hb_rn t; hb_esz := hb_esz t; hb_hsz := hb_hsz t;
               hb_hmap := fset (hb_hmap t) k pos; hb_ev := hb_ev t ++ [a]; hb_val := hb_val t ++ [h] |}, pos)
    else None
  else None.

Definition insert_h (cnt : N) (t : tab) (h : N) (a : list N) : option (tab * N) :=
  match probe (N.to_nat cnt) 0 h t h a with
  | Some (Found hm) => Some (t, hm)
  | Some (Free k) => add_entry t k h a
  | None => None
  end.

(** hash.c l.817-877 insert_in_hash_table *)
Definition insert (t : tab) (a : list N) : option (tab * N) :=
  let? h := hash t a in insert_h (hb_hsz t) t h a.

(** hash.c l.1152-1225 reinsert_in_hash_table, one term: the table size is held in a 32-bit variable. *)
Definition reinsert (t : tab) (a : list N) : option (tab * N) :=
  let? h := hash t a in insert_h (hb_hsz t mod 2 ^ 32) t h a.

(** hash.c l.783-815 check_insert_in_hash_table, with l.711-780 (used when PARALLEL_HASHING is 1; here one thread): the hash may be
    given; 0 means compute it. *)
Definition check_insert (t : tab) (a : list N) (h : N) : option (tab * N) :=
  let? h := (if h =? 0 then hash t a else Some h) in insert_h (hb_hsz t) t h a.

(** hash.c l.1138-1147: product of a multiplier (hash h1, exponents ea) with the entry b of table t1, inserted in t2
    through the added hashes (PARALLEL_HASHING = 1) or by hashing the product (PARALLEL_HASHING = 0). The product is
    first written to the free vector number eld (l.1134-1137), which must exist. *)
Definition insert_multiplied_fast (t1 t2 : tab) (h1 : N) (ea : list N) (b : nat) : option (tab * N) :=
  let? eb := rd (hb_ev t1) b in let? vb := rd (hb_val t1) b in
  if eld t2 <? hb_esz t2 then check_insert t2 (mul_ev ea eb) ((h1 + vb) mod 2 ^ 32) else None.
Definition insert_multiplied (t1 t2 : tab) (ea : list N) (b : nat) : option (tab * N) :=
  let? eb := rd (hb_ev t1) b in
  if eld t2 <? hb_esz t2 then insert t2 (mul_ev ea eb) else None.

(** hash.c l.992-1033: an lcm of another table is inserted with its stored hash, after copying it to the free vector
    number eld. *)
Definition insert_plcm (bht uht : tab) (l : nat) : option (tab * N) :=
  let? e := rd (hb_ev uht) l in let? h := rd (hb_val uht) l in
  if eld bht <? hb_esz bht then insert_h (hb_hsz bht) bht h e else None.

(** hash.c l.362-376: reinsertion of the known entries in the enlarged map, probing for an empty slot. When no slot
    is empty nothing is stored. *)
Fixpoint probe_empty (cnt : nat) (j k hsz : N) (hmap : N -> N) : option N :=
  match cnt with
  | O => None
  | S c => let k := N.land (k + j) ((hsz - 1) mod 2 ^ 32) in
           if hmap k =? 0 then Some k else probe_empty c (j + 1) k hsz hmap
  end.
Fixpoint rehash (vals : list N) (i : N) (hsz : N) (hmap : N -> N) : N -> N :=
  match vals with
  | [] => hmap
  | h :: vs => rehash vs (i + 1) hsz
      (match probe_empty (N.to_nat hsz) 0 h hsz hmap with Some k => fset hmap k (i mod 2 ^ 32) | None => hmap end)
  end.

(** hash.c l.317-392 enlarge_hash_table *)
Definition enlarge (t : tab) : tab :=
  let esz := 2 * hb_esz t in
  if hb_hsz t <? 2 ^ 32 then
    let hsz := 2 * hb_hsz t in
    {| hb_evl := hb_evl t; hb_rn := hb_rn t; hb_esz := esz; hb_hsz := hsz;
       hb_hmap := rehash (tl (hb_val t)) 1 hsz (fun _ => 0); hb_ev := hb_ev t; hb_val := hb_val t |}
  else
    {| hb_evl := hb_evl t; hb_rn := hb_rn t; hb_esz := esz; hb_hsz := hb_hsz t;
       hb_hmap := hb_hmap t; hb_ev := hb_ev t; hb_val := hb_val t |}.

(** hash.c l.45-128 (sizes and contents only): init_hts = b. *)
Definition init_tab (evl : nat) (rn : list N) (b : N) : tab :=
  {| hb_evl := evl; hb_rn := rn; hb_esz := 2 ^ b / 2; hb_hsz := 2 ^ b; hb_hmap := fun _ => 0;
     hb_ev := [repeat 0 evl]; hb_val := [0] |}.

(** hash.c l.922-930 clean_hash_table: forget everything, keep the sizes. *)
Definition clean (t : tab) : tab :=
  {| hb_evl := hb_evl t; hb_rn := hb_rn t; hb_esz := hb_esz t; hb_hsz := hb_hsz t; hb_hmap := fun _ => 0;
     hb_ev := [repeat 0 (hb_evl t)]; hb_val := [0] |}.

(** hash.c l.879-920 reinitialize_hash_table: double both sizes until [size < esz] (no limit on hsz here), forget
    everything. *)
Fixpoint grow (fuel : nat) (size esz hsz : N) : option (N * N) :=
  match fuel with
  | O => None
  | S f => if esz <=? size then grow f size (2 * esz) (2 * hsz) else Some (esz, hsz)
  end.
Definition reinitialize (t : tab) (size : N) : option tab :=
  let? r := grow 64 size (hb_esz t) (hb_hsz t) in
  Some {| hb_evl := hb_evl t; hb_rn := hb_rn t; hb_esz := fst r; hb_hsz := snd r; hb_hmap := fun _ => 0;
          hb_ev := [repeat 0 (hb_evl t)]; hb_val := [0] |}.

(** poly_to_matrix_row, hash.c l.1346-1366: [while (eld + len >= esz) enlarge], then len insertions. *)
Fixpoint reserve (fuel : nat) (t : tab) (len : N) : option tab :=
  match fuel with
  | O => None
  | S f => if hb_esz t <=? eld t + len then reserve f (enlarge t) len else Some t
  end.
Fixpoint insert_all (t : tab) (l : list (list N)) : option (tab * list N) :=
  match l with
  | [] => Some (t, [])
  | a :: l' => let? r := insert t a in let? s := insert_all (fst r) l' in Some (fst s, snd r :: snd s)
  end.
Definition insert_poly (t : tab) (l : list (list N)) : option (tab * list N) :=
  let? t' := reserve 64 t (N.of_nat (length l)) in insert_all t' l.

(** Histories *)
Inductive op := Insert (a : list N) | InsertPoly (l : list (list N)) | Enlarge | Clean | Reinit (size : N).
Definition step (t : tab) (o : op) : option (tab * list N) :=
  match o with
  | Insert a => let? r := insert t a in Some (fst r, [snd r])
  | InsertPoly l => insert_poly t l
  | Enlarge => Some (enlarge t, [])
  | Clean => Some (clean t, [])
  | Reinit size => let? t' := reinitialize t size in Some (t', [])
  end.
Fixpoint run (t : tab) (ops : list op) : option (tab * list (list N)) :=
  match ops with
  | [] => Some (t, [])
  | o :: os => let? r := step t o in let? s := run (fst r) os in Some (fst s, snd r :: snd s)
  end.
