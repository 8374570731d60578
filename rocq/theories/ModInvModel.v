(** Model of the modular inverses of msolve.
    Source: /repo/src/neogb/tools.h lines 38-123. *)
From Coq Require Import ZArith List Bool Lia.
Open Scope Z_scope.

(** [chk w x]: the value [x] of a C expression held in a signed [w]-bit variable.
    [None] when [x] is not representable (for int32_t/int64_t this is undefined behaviour; for
    int16_t the computation is done in [int] and the conversion back would change the value). *)
Definition chk (w : Z) (x : Z) : option Z :=
  if (- 2 ^ (w - 1) <=? x) && (x <? 2 ^ (w - 1)) then Some x else None.

Definition obind {A B} (o : option A) (f : A -> option B) : option B :=
  match o with Some x => f x | None => None end.
Notation "'let?' x := a 'in' b" := (obind a (fun x => b)) (at level 200, x name, right associativity).

(** The [while (b != 0)] loop, tools.h l.51-59, l.80-88, l.109-117.
    [fuel] bounds the number of iterations; running out of it is [None]. *)
Fixpoint mpi_loop (fuel : nat) (w a b c d : Z) : option Z :=
  match fuel with
  | O => None
  | S fuel' =>
      if b =? 0 then Some d else
      let f := b in
      let? e  := chk w (Z.quot a f) in
      let? ef := chk w (e * f) in
      let? b' := chk w (a - ef) in
      let a' := f in
      let f' := c in
      let? ef' := chk w (e * f') in
      let? c' := chk w (d - ef') in
      let d' := f' in
      mpi_loop fuel' w a' b' c' d'
  end.

(** tools.h l.38-65 (w = 16, out = 8), l.67-94 (w = 32, out = 16), l.96-123 (w = 64, out = 32).
    [Z.rem]/[Z.quot] are C's truncating operators; [>>] on a negative value is the arithmetic shift used by
    all supported compilers; the result is converted to an unsigned type of [out] bits. Division by p = 0 is
    [None]. *)
Definition mod_p_inverse (w out : Z) (val p : Z) : option Z :=
  if p =? 0 then None else
  let b0 := Z.rem val p in
  let? b := chk w (b0 + Z.land (Z.shiftr b0 (w - 1)) p) in
  let? d := mpi_loop (Z.to_nat (2 * w + 2)) w p b 1 0 in
  let? d' := chk w (d + Z.land (Z.shiftr d (w - 1)) p) in
  Some (d' mod 2 ^ out).

Definition mod_p_inverse_8  := mod_p_inverse 16 8.
Definition mod_p_inverse_16 := mod_p_inverse 32 16.
Definition mod_p_inverse_32 := mod_p_inverse 64 32.
