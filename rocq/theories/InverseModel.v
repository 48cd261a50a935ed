(** * Triangular inverse and inverse from a Cholesky factor (local variants). *)
From Coq Require Import ZArith Lia List Bool.
From Verif Require Import Loop StarField DenseSpec Tiling DenseJobs TileJobs CholeskyModel.
Import ListNotations.
Local Open Scope Z_scope.

Section model.
Context {K : starfield} (kn : kernels K) (t : tiling).
Let nrtiles := tl_n t.
Let sz := tl_sz t.

(** inverse/triangular/impl.h:184-232 (kernels: 46-106), CPU variant (replace_trtri = 0); with no tiles the loop is empty *)
Definition triangular_inv_call_L (d : diag) : list (tjob (mat K)) :=
  for_down (nrtiles - 1) 0 (fun k =>
    for_up (k + 1) nrtiles (fun i =>
      [jtrsm kn Right Lower NoTrans d (sz i) (sz k) (fopp f1) (A_ k k) (A_ i k)] ++
      for_up 0 k (fun j => [jgemm kn NoTrans NoTrans (sz i) (sz j) (sz k) f1 (A_ i k) (A_ k j) f1 (A_ i j)])) ++
    for_up 0 k (fun j => [jtrsm kn Left Lower NoTrans d (sz k) (sz j) f1 (A_ k k) (A_ k j)]) ++
    [jtrtri kn Lower d (sz k) (A_ k k)]).

(** inverse/triangular/impl.h:365-409 (kernels: 108-168) *)
Definition triangular_inv_call_U (d : diag) : list (tjob (mat K)) :=
  for_down (nrtiles - 1) 0 (fun k =>
    for_up (k + 1) nrtiles (fun j =>
      [jtrsm kn Left Upper NoTrans d (sz k) (sz j) (fopp f1) (A_ k k) (A_ k j)] ++
      for_up 0 k (fun i => [jgemm kn NoTrans NoTrans (sz i) (sz j) (sz k) f1 (A_ i k) (A_ k j) f1 (A_ i j)])) ++
    for_up 0 k (fun i => [jtrsm kn Right Upper NoTrans d (sz i) (sz k) f1 (A_ k k) (A_ i k)]) ++
    [jtrtri kn Upper d (sz k) (A_ k k)]).

(** inverse/triangular.h:38-47 *)
Definition triangular_inverse (u : uplo) (d : diag) : list (tjob (mat K)) :=
  match u with Lower => triangular_inv_call_L d | Upper => triangular_inv_call_U d end.

(** inverse/cholesky/impl.h:179-225 (kernels: 46-106), CPU variant (replace_lauum = 0) *)
Definition assemble_call_L : list (tjob (mat K)) :=
  for_up 0 nrtiles (fun k =>
    for_up 0 k (fun i =>
      for_up 0 i (fun j => [jgemm kn ConjTrans NoTrans (sz i) (sz j) (sz k) f1 (A_ k i) (A_ k j) f1 (A_ i j)]) ++
      [jherk kn Lower ConjTrans (sz i) (sz k) f1 (A_ k i) f1 (A_ i i)]) ++
    for_up 0 k (fun j => [jtrmm kn Left Lower ConjTrans NonUnit (sz k) (sz j) f1 (A_ k k) (A_ k j)]) ++
    [jlauum kn Lower (sz k) (A_ k k)]).

(** inverse/cholesky/impl.h:356-402 (kernels: 109-170) *)
Definition assemble_call_U : list (tjob (mat K)) :=
  for_up 0 nrtiles (fun k =>
    for_up 0 k (fun j =>
      for_up 0 j (fun i => [jgemm kn NoTrans ConjTrans (sz i) (sz j) (sz k) f1 (A_ i k) (A_ j k) f1 (A_ i j)]) ++
      [jherk kn Upper NoTrans (sz j) (sz k) f1 (A_ j k) f1 (A_ j j)]) ++
    for_up 0 k (fun i => [jtrmm kn Right Upper ConjTrans NonUnit (sz i) (sz k) f1 (A_ k k) (A_ i k)]) ++
    [jlauum kn Upper (sz k) (A_ k k)]).

(** inverse/cholesky.h:37-51: submits both; the tile dependencies order them *)
Definition inverse_from_cholesky_factor (u : uplo) : list (tjob (mat K)) :=
  match u with
  | Lower => triangular_inv_call_L NonUnit ++ assemble_call_L
  | Upper => triangular_inv_call_U NonUnit ++ assemble_call_U
  end.
End model.
