(** * General and Hermitian multiplication (local variants). *)
From Coq Require Import ZArith Lia List Bool.
From Verif Require Import Loop StarField DenseSpec Tiling DenseJobs TileJobs.
Import ListNotations.
Local Open Scope Z_scope.

Section model.
(** tilings of the rows of mat_c, of the columns of mat_c, and of the inner dimension *)
Context {K : starfield} (kn : kernels K) (tr tc tk : tiling) (al be : F K).
Let sr := tl_sz tr.
Let sc := tl_sz tc.
Let sk := tl_sz tk.
(** tiles of mat_a, mat_b, mat_c *)
Definition MA (i j : Z) : tid := Tid 0 0 i j.
Definition MB (i j : Z) : tid := Tid 0 1 i j.
Definition MC (i j : Z) : tid := Tid 0 2 i j.

(** multiplication/general/impl.h:34-64: General::callNN (local); the arguments are MatrixRef: the tiles
    are those of the sub-matrices. *)
Definition general_NN : list (tjob (mat K)) :=
  if tl_n tk =? 0 then
    (if feq_dec K be f1 then [] else for_up 0 (tl_n tc) (fun j => for_up 0 (tl_n tr) (fun i => [jscal be (MC i j)])))
  else
    for_up 0 (tl_n tc) (fun j => for_up 0 (tl_n tr) (fun i => for_up 0 (tl_n tk) (fun k =>
      [jgemm kn NoTrans NoTrans (sr i) (sc j) (sk k) al (MA i k) (MB k j) (if k =? 0 then be else f1) (MC i j)]))).

(** multiplication/hermitian/impl.h:40-96: Hermitian::call_LL (local); tk is not used: mat_a is tiled by tr.
    beta_ij is beta for the first kernel on a tile and 1 afterwards; iterate_range2d goes column by column
    (common/range2d.h, C12). *)
Definition hermitian_LL : list (tjob (mat K)) :=
  for_up 0 (tl_n tc) (fun j => for_up 0 (tl_n tr) (fun i =>
    for_up 0 i (fun l => [jgemm kn NoTrans NoTrans (sr i) (sc j) (sr l) al (MA i l) (MB l j) (if l =? 0 then be else f1) (MC i j)]) ++
    [jhemm kn Left Lower (sr i) (sc j) al (MA i i) (MB i j) (if i =? 0 then be else f1) (MC i j)] ++
    for_up (i + 1) (tl_n tr) (fun l => [jgemm kn ConjTrans NoTrans (sr i) (sc j) (sr l) al (MA l i) (MB l j) f1 (MC i j)]))).
End model.
