(** * Cholesky factorization: factorization/cholesky/impl.h (local variants). *)
From Coq Require Import ZArith Lia List Bool.
From Verif Require Import Loop StarField DenseSpec Tiling DenseJobs TileJobs.
Import ListNotations.
Local Open Scope Z_scope.

Section model.
Context {K : starfield} (kn : kernels K) (t : tiling).
Let nrtile := tl_n t.
Let sz := tl_sz t.
(** tile (i, j) of mat_a *)
Definition A_ (i j : Z) : tid := Tid 0 0 i j.

(** factorization/cholesky/impl.h:150-188 (kernels: 46-98) *)
Definition cholesky_call_L : list (tjob (mat K)) :=
  for_up 0 nrtile (fun k =>
    [jpotrf kn Lower (sz k) (A_ k k)] ++
    for_up (k + 1) nrtile (fun i =>
      [jtrsm kn Right Lower ConjTrans NonUnit (sz i) (sz k) f1 (A_ k k) (A_ i k)]) ++
    for_up (k + 1) nrtile (fun j =>
      [jherk kn Lower NoTrans (sz j) (sz k) (fopp f1) (A_ j k) f1 (A_ j j)] ++
      for_up (j + 1) nrtile (fun i =>
        [jgemm kn NoTrans ConjTrans (sz i) (sz j) (sz k) (fopp f1) (A_ i k) (A_ j k) f1 (A_ i j)]))).

(** factorization/cholesky/impl.h:316-347 (kernels: 100-148) *)
Definition cholesky_call_U : list (tjob (mat K)) :=
  for_up 0 nrtile (fun k =>
    [jpotrf kn Upper (sz k) (A_ k k)] ++
    for_up (k + 1) nrtile (fun j =>
      [jtrsm kn Left Upper ConjTrans NonUnit (sz k) (sz j) f1 (A_ k k) (A_ k j)]) ++
    for_up (k + 1) nrtile (fun i =>
      [jherk kn Upper ConjTrans (sz i) (sz k) (fopp f1) (A_ k i) f1 (A_ i i)] ++
      for_up (i + 1) nrtile (fun j =>
        [jgemm kn ConjTrans NoTrans (sz i) (sz j) (sz k) (fopp f1) (A_ k i) (A_ k j) f1 (A_ i j)]))).

(** factorization/cholesky.h:41-53 (the assertions are the hypotheses of the theorems) *)
Definition cholesky_factorization (u : uplo) : list (tjob (mat K)) :=
  match u with Lower => cholesky_call_L | Upper => cholesky_call_U end.
End model.
