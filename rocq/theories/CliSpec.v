(** The command line: the words that a shell passes, the occurrences of options in them, the value that each setting gets, the files
    that are opened. Independent of the code: the letters are those of the help text and of README.md, the grammar is that of the
    utility conventions of POSIX with the extension that operands may stand between options. *)
From Coq Require Import ZArith Arith List Bool Ascii.
From Verif Require Import ParseSpec.
Import ListNotations.
Open Scope Z_scope.

(** options without and with an argument *)
Definition flags : list ascii := ["h"; "i"; "S"; "C"; "V"]%char.
Definition takes : list ascii := ["f"; "N"; "F"; "v"; "l"; "t"; "e"; "o"; "O"; "u"; "I"; "p"; "P"; "L"; "q"; "g"; "c"; "s"; "r"; "R"; "m"; "M"; "n"; "d"]%char.
Definition dash : ascii := "-"%char.

(** One occurrence of an option: something that is no option or that lacks its argument, an option without argument, one with argument. *)
Inductive occ := Bad | Flag (c : ascii) | Opt (c : ascii) (a : str).

(** [cluster s r l r']: the letters [s] behind a dash, followed by the words [r], are the occurrences [l] and leave the words [r']. *)
Inductive cluster : str -> list str -> list occ -> list str -> Prop :=
| cl_nil r : cluster [] r [] r
| cl_flag c s r l r' : In c flags -> cluster s r l r' -> cluster (c :: s) r (Flag c :: l) r'
| cl_bad c s r l r' : ~ In c flags -> ~ In c takes -> cluster s r l r' -> cluster (c :: s) r (Bad :: l) r'
| cl_here c s r : In c takes -> s <> [] -> cluster (c :: s) r [Opt c s] r
| cl_next c a r : In c takes -> cluster [c] (a :: r) [Opt c a] r
| cl_none c : In c takes -> cluster [c] [] [Bad] [].
(** The words of a command line: the word of two dashes ends the options, a word that does not begin with a dash and the word of one
    dash are operands, which are ignored. *)
Inductive words : list str -> list occ -> Prop :=
| w_end : words [] []
| w_stop r : words ([dash; dash] :: r) []
| w_operand a r l : (forall s, a = dash :: s -> s = []) -> words r l -> words (a :: r) l
| w_option s r l r' l' : s <> [] -> s <> [dash] -> cluster s r l r' -> words r' l' -> words ((dash :: s) :: r) (l ++ l').

(** The number at the beginning of a text: blanks, a sign, digits. *)
Inductive reads : str -> Z -> Prop :=
| reads_num b g d t : forallb is_space b = true -> number d -> match t with [] => True | c :: _ => is_digit c = false end ->
    g = [] \/ g = [dash] \/ g = ["+"%char] -> reads (b ++ g ++ d ++ t) (match g with [] => dval d | c :: _ => if Ascii.eqb c dash then - dval d else dval d end).
(** What a variable of 32 bits holds: the number if it fits; else the number brought into 64 bits, without its upper half. *)
Definition holds (z v : Z) : Prop := - 2 ^ 31 <= v < 2 ^ 31 /\ exists k, v = Z.max (- 2 ^ 63) (Z.min (2 ^ 63 - 1) z) + k * 2 ^ 32.
(** A text without a number counts as zero. *)
Definition value (a : str) (v : Z) : Prop := (exists z, reads a z /\ holds z v) \/ ((forall z, ~ reads a z) /\ v = 0).

(** The settings. *)
Inductive var := v_hts | v_threads | v_pairs | v_elim | v_la | v_sig | v_ht | v_reduce | v_print | v_trunc | v_gener | v_stair | v_sat
  | v_colon | v_nf | v_nfm | v_gb | v_lift | v_param | v_prec | v_refine | v_isol | v_info.
(** A number with its letter, its default and its range, and what is taken below and above of the range; or a switch. *)
Inductive kind := Num (c : ascii) (d lo below hi above : Z) | Switch (c : ascii).
Definition any (c : ascii) (d : Z) : kind := Num c d (- 2 ^ 31) 0 (2 ^ 31 - 1) 0.
Definition nonneg (c : ascii) (d below : Z) : kind := Num c d 0 below (2 ^ 31 - 1) 0.
Definition kind_of (v : var) : kind :=
  match v with
  | v_hts => any "s" 17 | v_threads => any "t" 1 | v_pairs => any "m" 0 | v_elim => nonneg "e" 0 0 | v_la => any "l" 2
  | v_sig => Num "q" 0 0 0 3 0 | v_ht => any "u" 0 | v_reduce => any "r" 1 | v_print => Num "g" 0 0 0 2 2 | v_trunc => any "N" 0
  | v_gener => Num "c" 2 0 0 2 2 | v_stair => Num "d" 2 0 0 4 4 | v_sat => Switch "S" | v_colon => Switch "C" | v_nf => nonneg "n" 0 0
  | v_nfm => nonneg "M" 0 0 | v_gb => Switch "i" | v_lift => any "L" 0 | v_param => nonneg "P" 0 0 | v_prec => nonneg "p" 128 128
  | v_refine => Switch "R" | v_isol => any "I" 0 | v_info => any "v" 0
  end.
Definition occurs (c : ascii) (l : list occ) : Prop := In (Flag c) l \/ exists a, In (Opt c a) l.
(** the last argument of the option [c] *)
Definition last_arg (c : ascii) (l : list occ) (a : option str) : Prop :=
  match a with
  | None => forall b, ~ In (Opt c b) l
  | Some t => exists l1 l2, l = l1 ++ Opt c t :: l2 /\ forall b, ~ In (Opt c b) l2
  end.
Definition setting (v : var) (l : list occ) (z : Z) : Prop :=
  match kind_of v with
  | Num c d lo below hi above =>
      (last_arg c l None /\ z = d) \/
      exists t x, last_arg c l (Some t) /\ value t x /\ ((x < lo /\ z = below) \/ (hi < x /\ z = above) \/ (lo <= x <= hi /\ z = x))
  | Switch c => (occurs c l /\ z = 1) \/ (~ occurs c l /\ z = 0)
  end.

(** Names of files: input, binary input, output, binary output. *)
Record files := { f_in : option str; f_bin : option str; f_out : option str; f_bout : option str }.
Definition named (l : list occ) (f : files) : Prop :=
  last_arg "f" l (f_in f) /\ last_arg "F" l (f_bin f) /\ last_arg "o" l (f_out f) /\ last_arg "O" l (f_bout f).

(** What the command line asks for. *)
Inductive asked := Help | Version | NoFile | Invalid | Run (s : var -> Z) (f : files).
Definition asks (l : list occ) (o : asked) : Prop :=
  let stops := fun x => x = Flag "h" \/ x = Flag "V" in
  match o with
  | Help => exists l1 l2, l = l1 ++ Flag "h" :: l2 /\ forall x, In x l1 -> ~ stops x
  | Version => exists l1 l2, l = l1 ++ Flag "V" :: l2 /\ forall x, In x l1 -> ~ stops x
  | NoFile => (forall x, In x l -> ~ stops x) /\ last_arg "f" l None /\ last_arg "F" l None
  | Invalid => (forall x, In x l -> ~ stops x) /\ (exists a, In (Opt "f" a) l \/ In (Opt "F" a) l) /\ In Bad l
  | Run s f => (forall x, In x l -> ~ stops x) /\ (exists a, In (Opt "f" a) l \/ In (Opt "F" a) l) /\ ~ In Bad l /\
               (forall v, setting v l (s v)) /\ named l f
  end.

(** A disk: names of files (several names may stand for one file), their texts, the names that may be opened for writing. *)
Record disk := { d_file : str -> option nat; d_text : nat -> str; d_next : nat; d_write : str -> bool }.
Definition disk_ok (d : disk) : Prop := forall n k, d_file d n = Some k -> (k < d_next d)%nat.
Definition text_of (d : disk) (n : str) : option str := match d_file d n with Some k => Some (d_text d k) | None => None end.
Definition same_file (d : disk) (n n' : str) : Prop := n = n' \/ exists k, d_file d n = Some k /\ d_file d n' = Some k.
