(** * C++ integer arithmetic with explicit failure outcomes.

    Models the arithmetic used by [SizeType] (std::int64_t, include/dlaf/types.h:38)
    and [int] (comm::IndexT_MPI).  Signed overflow and division by zero are
    undefined behaviour in C++: they are a distinct outcome [UB], never a value.
    A failed DLAF_ASSERT terminates the process: outcome [Abort]
    (include/dlaf/common/assert.h). *)
From Coq Require Import ZArith Bool.
Open Scope Z_scope.

Inductive res (A : Type) : Type :=
| Ok (a : A)
| Abort
| UB.
Arguments Ok {A} _.
Arguments Abort {A}.
Arguments UB {A}.

Definition bind {A B} (m : res A) (k : A -> res B) : res B :=
  match m with
  | Ok a => k a
  | Abort => Abort
  | UB => UB
  end.

Notation "x <- m ;; k" := (bind m (fun x => k))
  (at level 61, m at next level, right associativity).
Notation "'do' m ;;; k" := (bind m (fun _ => k))
  (at level 61, m at next level, right associativity).

(** DLAF_ASSERT(cond, ...): include/dlaf/common/assert.h *)
Definition dlaf_assert (b : bool) : res unit := if b then Ok tt else Abort.

Definition i64_min : Z := - 2 ^ 63.
Definition i64_max : Z := 2 ^ 63 - 1.
Definition i32_min : Z := - 2 ^ 31.
Definition i32_max : Z := 2 ^ 31 - 1.

Definition in_i64 (z : Z) : bool := (i64_min <=? z) && (z <=? i64_max).
Definition in_i32 (z : Z) : bool := (i32_min <=? z) && (z <=? i32_max).

Definition i64 (z : Z) : res Z := if in_i64 z then Ok z else UB.
Definition i32 (z : Z) : res Z := if in_i32 z then Ok z else UB.

(** int64 operators of C++ ([/] and [%] truncate towards zero). *)
Definition add64 (a b : Z) : res Z := i64 (a + b).
Definition sub64 (a b : Z) : res Z := i64 (a - b).
Definition mul64 (a b : Z) : res Z := i64 (a * b).
Definition div64 (a b : Z) : res Z := if b =? 0 then UB else i64 (Z.quot a b).
(** [a % b] is UB when [a / b] is not representable. *)
Definition rem64 (a b : Z) : res Z :=
  if b =? 0 then UB else if in_i64 (Z.quot a b) then Ok (Z.rem a b) else UB.

(** int operators *)
Definition add32 (a b : Z) : res Z := i32 (a + b).
Definition sub32 (a b : Z) : res Z := i32 (a - b).
Definition rem32 (a b : Z) : res Z :=
  if b =? 0 then UB else if in_i32 (Z.quot a b) then Ok (Z.rem a b) else UB.

(** static_cast<int>(int64): modular in C++20, no diagnostic. *)
Definition wrap32 (z : Z) : Z := (z + 2 ^ 31) mod 2 ^ 32 - 2 ^ 31.
