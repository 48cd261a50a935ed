(** * Triangular solve and triangular multiplication (local variants).
    solver/triangular/impl.h:237-477, multiplication/triangular/impl.h:201-398 and their dispatchers. *)
From Coq Require Import ZArith Lia List Bool.
From Verif Require Import Loop StarField DenseSpec Tiling DenseJobs TileJobs.
Import ListNotations.
Local Open Scope Z_scope.

Section model.
(** tilings of the rows and of the columns of mat_b; alpha *)
Context {K : starfield} (kn : kernels K) (tr tc : tiling) (al : F K).
Let m := tl_n tr.
Let n := tl_n tc.
Let sr := tl_sz tr.
Let sc := tl_sz tc.
(** tiles of mat_a and of mat_b *)
Definition A_ (i j : Z) : tid := Tid 0 0 i j.
Definition B_ (i j : Z) : tid := Tid 0 1 i j.
(** auto beta = static_cast<T>(-1.0) / alpha; division by zero gives an arbitrary value of the field *)
Definition beta : F K := fmul (fopp f1) (finv al).

(** ** Solver *)
(** solver/triangular/impl.h:237-264, kernels 40-64 *)
Definition solve_LLN (d : diag) : list (tjob (mat K)) :=
  for_up 0 m (fun k => for_up 0 n (fun j =>
    [jtrsm kn Left Lower NoTrans d (sr k) (sc j) al (A_ k k) (B_ k j)] ++
    for_up (k + 1) m (fun i => [jgemm kn NoTrans NoTrans (sr i) (sc j) (sr k) beta (A_ i k) (B_ k j) f1 (B_ i j)]))).
(** 267-295 *)
Definition solve_LLT (o : op) (d : diag) : list (tjob (mat K)) :=
  for_down (m - 1) 0 (fun k => for_down (n - 1) 0 (fun j =>
    [jtrsm kn Left Lower o d (sr k) (sc j) al (A_ k k) (B_ k j)] ++
    for_down (k - 1) 0 (fun i => [jgemm kn o NoTrans (sr i) (sc j) (sr k) beta (A_ k i) (B_ k j) f1 (B_ i j)]))).
(** 298-323 *)
Definition solve_LUN (d : diag) : list (tjob (mat K)) :=
  for_down (m - 1) 0 (fun k => for_down (n - 1) 0 (fun j =>
    [jtrsm kn Left Upper NoTrans d (sr k) (sc j) al (A_ k k) (B_ k j)] ++
    for_down (k - 1) 0 (fun i => [jgemm kn NoTrans NoTrans (sr i) (sc j) (sr k) beta (A_ i k) (B_ k j) f1 (B_ i j)]))).
(** 326-354 *)
Definition solve_LUT (o : op) (d : diag) : list (tjob (mat K)) :=
  for_up 0 m (fun k => for_up 0 n (fun j =>
    [jtrsm kn Left Upper o d (sr k) (sc j) al (A_ k k) (B_ k j)] ++
    for_up (k + 1) m (fun i => [jgemm kn o NoTrans (sr i) (sc j) (sr k) beta (A_ k i) (B_ k j) f1 (B_ i j)]))).
(** 357-384 *)
Definition solve_RLN (d : diag) : list (tjob (mat K)) :=
  for_down (n - 1) 0 (fun k => for_down (m - 1) 0 (fun i =>
    [jtrsm kn Right Lower NoTrans d (sr i) (sc k) al (A_ k k) (B_ i k)] ++
    for_down (k - 1) 0 (fun j => [jgemm kn NoTrans NoTrans (sr i) (sc j) (sc k) beta (B_ i k) (A_ k j) f1 (B_ i j)]))).
(** 387-416 *)
Definition solve_RLT (o : op) (d : diag) : list (tjob (mat K)) :=
  for_up 0 n (fun k => for_up 0 m (fun i =>
    [jtrsm kn Right Lower o d (sr i) (sc k) al (A_ k k) (B_ i k)] ++
    for_up (k + 1) n (fun j => [jgemm kn NoTrans o (sr i) (sc j) (sc k) beta (B_ i k) (A_ j k) f1 (B_ i j)]))).
(** 419-446 *)
Definition solve_RUN (d : diag) : list (tjob (mat K)) :=
  for_up 0 n (fun k => for_up 0 m (fun i =>
    [jtrsm kn Right Upper NoTrans d (sr i) (sc k) al (A_ k k) (B_ i k)] ++
    for_up (k + 1) n (fun j => [jgemm kn NoTrans NoTrans (sr i) (sc j) (sc k) beta (B_ i k) (A_ k j) f1 (B_ i j)]))).
(** 449-478 *)
Definition solve_RUT (o : op) (d : diag) : list (tjob (mat K)) :=
  for_down (n - 1) 0 (fun k => for_down (m - 1) 0 (fun i =>
    [jtrsm kn Right Upper o d (sr i) (sc k) al (A_ k k) (B_ i k)] ++
    for_down (k - 1) 0 (fun j => [jgemm kn NoTrans o (sr i) (sc j) (sc k) beta (B_ i k) (A_ j k) f1 (B_ i j)]))).
(** solver/triangular.h:30-76 (assertions: hypotheses of the theorem) *)
Definition triangular_solver (s : side) (u : uplo) (o : op) (d : diag) : list (tjob (mat K)) :=
  match s with
  | Left =>
      match u with
      | Lower => match o with NoTrans => solve_LLN d | _ => solve_LLT o d end
      | Upper => match o with NoTrans => solve_LUN d | _ => solve_LUT o d end
      end
  | Right =>
      match u with
      | Lower => match o with NoTrans => solve_RLN d | _ => solve_RLT o d end
      | Upper => match o with NoTrans => solve_RUN d | _ => solve_RUT o d end
      end
  end.

(** ** Multiplication *)
(** multiplication/triangular/impl.h:202-224, kernels 37-60 *)
Definition mult_LLN (d : diag) : list (tjob (mat K)) :=
  for_down (m - 1) 0 (fun k => for_up 0 n (fun j =>
    for_up (k + 1) m (fun i => [jgemm kn NoTrans NoTrans (sr i) (sc j) (sr k) al (A_ i k) (B_ k j) f1 (B_ i j)]) ++
    [jtrmm kn Left Lower NoTrans d (sr k) (sc j) al (A_ k k) (B_ k j)])).
(** 226-249 *)
Definition mult_LLT (o : op) (d : diag) : list (tjob (mat K)) :=
  for_up 0 m (fun k => for_up 0 n (fun j =>
    for_down (k - 1) 0 (fun i => [jgemm kn o NoTrans (sr i) (sc j) (sr k) al (A_ k i) (B_ k j) f1 (B_ i j)]) ++
    [jtrmm kn Left Lower o d (sr k) (sc j) al (A_ k k) (B_ k j)])).
(** 251-273 *)
Definition mult_LUN (d : diag) : list (tjob (mat K)) :=
  for_up 0 m (fun k => for_up 0 n (fun j =>
    for_up 0 k (fun i => [jgemm kn NoTrans NoTrans (sr i) (sc j) (sr k) al (A_ i k) (B_ k j) f1 (B_ i j)]) ++
    [jtrmm kn Left Upper NoTrans d (sr k) (sc j) al (A_ k k) (B_ k j)])).
(** 275-298 *)
Definition mult_LUT (o : op) (d : diag) : list (tjob (mat K)) :=
  for_down (m - 1) 0 (fun k => for_down (n - 1) 0 (fun j =>
    for_up (k + 1) m (fun i => [jgemm kn o NoTrans (sr i) (sc j) (sr k) al (A_ k i) (B_ k j) f1 (B_ i j)]) ++
    [jtrmm kn Left Upper o d (sr k) (sc j) al (A_ k k) (B_ k j)])).
(** 300-323 *)
Definition mult_RLN (d : diag) : list (tjob (mat K)) :=
  for_up 0 n (fun k => for_up 0 m (fun i =>
    for_down (k - 1) 0 (fun j => [jgemm kn NoTrans NoTrans (sr i) (sc j) (sc k) al (B_ i k) (A_ k j) f1 (B_ i j)]) ++
    [jtrmm kn Right Lower NoTrans d (sr i) (sc k) al (A_ k k) (B_ i k)])).
(** 325-348 *)
Definition mult_RLT (o : op) (d : diag) : list (tjob (mat K)) :=
  for_down (n - 1) 0 (fun k => for_down (m - 1) 0 (fun i =>
    for_up (k + 1) n (fun j => [jgemm kn NoTrans o (sr i) (sc j) (sc k) al (B_ i k) (A_ j k) f1 (B_ i j)]) ++
    [jtrmm kn Right Lower o d (sr i) (sc k) al (A_ k k) (B_ i k)])).
(** 350-373 *)
Definition mult_RUN (d : diag) : list (tjob (mat K)) :=
  for_down (n - 1) 0 (fun k => for_down (m - 1) 0 (fun i =>
    for_up (k + 1) n (fun j => [jgemm kn NoTrans NoTrans (sr i) (sc j) (sc k) al (B_ i k) (A_ k j) f1 (B_ i j)]) ++
    [jtrmm kn Right Upper NoTrans d (sr i) (sc k) al (A_ k k) (B_ i k)])).
(** 375-398 *)
Definition mult_RUT (o : op) (d : diag) : list (tjob (mat K)) :=
  for_up 0 n (fun k => for_up 0 m (fun i =>
    for_down (k - 1) 0 (fun j => [jgemm kn NoTrans o (sr i) (sc j) (sc k) al (B_ i k) (A_ j k) f1 (B_ i j)]) ++
    [jtrmm kn Right Upper o d (sr i) (sc k) al (A_ k k) (B_ i k)])).
(** multiplication/triangular.h:47-86 *)
Definition triangular_multiplication (s : side) (u : uplo) (o : op) (d : diag) : list (tjob (mat K)) :=
  match s with
  | Left =>
      match u with
      | Lower => match o with NoTrans => mult_LLN d | _ => mult_LLT o d end
      | Upper => match o with NoTrans => mult_LUN d | _ => mult_LUT o d end
      end
  | Right =>
      match u with
      | Lower => match o with NoTrans => mult_RLN d | _ => mult_RLT o d end
      | Upper => match o with NoTrans => mult_RUN d | _ => mult_RUT o d end
      end
  end.
End model.
