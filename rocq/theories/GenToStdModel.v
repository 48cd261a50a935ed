(** * Reduction to standard form: eigensolver/gen_to_std/impl.h (local variants). *)
From Coq Require Import ZArith Lia List Bool.
From Verif Require Import Loop StarField DenseSpec Tiling DenseJobs TileJobs CholeskyModel.
Import ListNotations.
Local Open Scope Z_scope.

Section model.
Context {K : starfield} (kn : kernels K) (t : tiling).
Let nrtile := tl_n t.
Let sz := tl_sz t.
(** tile (i, j) of mat_l / mat_u *)
Definition L_ (i j : Z) : tid := Tid 0 1 i j.

(** eigensolver/gen_to_std/impl.h:219-282 (kernels: 43-133) *)
Definition gen_to_std_call_L : list (tjob (mat K)) :=
  for_up 0 nrtile (fun k =>
    [jhegst kn Lower (sz k) (A_ k k) (L_ k k)] ++
    (if k =? nrtile - 1 then [] else
    for_up (k + 1) nrtile (fun i =>
      [jtrsm kn Right Lower ConjTrans NonUnit (sz i) (sz k) f1 (L_ k k) (A_ i k);
       jhemm kn Right Lower (sz i) (sz k) (fopp fhalf) (A_ k k) (L_ i k) f1 (A_ i k)]) ++
    for_up (k + 1) nrtile (fun j =>
      [jher2k kn Lower NoTrans (sz j) (sz k) (fopp f1) (A_ j k) (L_ j k) f1 (A_ j j)] ++
      for_up (j + 1) nrtile (fun i =>
        [jgemm kn NoTrans ConjTrans (sz i) (sz j) (sz k) (fopp f1) (A_ i k) (L_ j k) f1 (A_ i j);
         jgemm kn NoTrans ConjTrans (sz i) (sz j) (sz k) (fopp f1) (L_ i k) (A_ j k) f1 (A_ i j)])) ++
    for_up (k + 1) nrtile (fun i =>
      [jhemm kn Right Lower (sz i) (sz k) (fopp fhalf) (A_ k k) (L_ i k) f1 (A_ i k)]) ++
    for_up (k + 1) nrtile (fun j =>
      [jtrsm kn Left Lower NoTrans NonUnit (sz j) (sz k) f1 (L_ j j) (A_ j k)] ++
      for_up (j + 1) nrtile (fun i =>
        [jgemm kn NoTrans NoTrans (sz i) (sz k) (sz j) (fopp f1) (L_ i j) (A_ j k) f1 (A_ i k)])))).

(** eigensolver/gen_to_std/impl.h:506-567 (kernels: 135-217) *)
Definition gen_to_std_call_U : list (tjob (mat K)) :=
  for_up 0 nrtile (fun k =>
    [jhegst kn Upper (sz k) (A_ k k) (L_ k k)] ++
    (if k =? nrtile - 1 then [] else
    for_up (k + 1) nrtile (fun i =>
      [jtrsm kn Left Upper ConjTrans NonUnit (sz k) (sz i) f1 (L_ k k) (A_ k i);
       jhemm kn Left Upper (sz k) (sz i) (fopp fhalf) (A_ k k) (L_ k i) f1 (A_ k i)]) ++
    for_up (k + 1) nrtile (fun i =>
      [jher2k kn Upper ConjTrans (sz i) (sz k) (fopp f1) (A_ k i) (L_ k i) f1 (A_ i i)] ++
      for_up (i + 1) nrtile (fun j =>
        [jgemm kn ConjTrans NoTrans (sz i) (sz j) (sz k) (fopp f1) (A_ k i) (L_ k j) f1 (A_ i j);
         jgemm kn ConjTrans NoTrans (sz i) (sz j) (sz k) (fopp f1) (L_ k i) (A_ k j) f1 (A_ i j)])) ++
    for_up (k + 1) nrtile (fun i =>
      [jhemm kn Left Upper (sz k) (sz i) (fopp fhalf) (A_ k k) (L_ k i) f1 (A_ k i)]) ++
    for_up (k + 1) nrtile (fun i =>
      [jtrsm kn Right Upper NoTrans NonUnit (sz k) (sz i) f1 (L_ i i) (A_ k i)] ++
      for_up (i + 1) nrtile (fun j =>
        [jgemm kn NoTrans NoTrans (sz k) (sz j) (sz i) (fopp f1) (A_ k i) (L_ i j) f1 (A_ k j)])))).

(** eigensolver/gen_to_std.h:49-73 *)
Definition gen_to_std (u : uplo) : list (tjob (mat K)) :=
  match u with Lower => gen_to_std_call_L | Upper => gen_to_std_call_U end.
End model.
