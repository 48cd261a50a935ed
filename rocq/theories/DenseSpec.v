(** * What the BLAS/LAPACK-like operations compute (exact arithmetic).
    The same predicates serve as the contracts of the tile kernels and as the specifications of the
    tiled algorithms: a tiled algorithm must do to the whole matrix what the kernel does to a tile.
    Kernels: blas/tile.h:208-274, lapack/tile.h:418-505 (they forward to BLAS++/LAPACK++, which are not
    part of the repository: their documented meaning is stated here). *)
From Coq Require Import ZArith Lia List Bool.
From Verif Require Import Loop StarField.
Local Open Scope Z_scope.

Inductive uplo := Lower | Upper.
Inductive op := NoTrans | Trans | ConjTrans.
Inductive side := Left | Right.
Inductive diag := NonUnit | Unit.

Section spec.
Context {K : starfield}.
Local Open Scope sf_scope.
(** A matrix: its elements (row, column); only those inside its size matter. *)
Definition mat := Z -> Z -> F K.

Definition opm (o : op) (A : mat) : mat := fun i j =>
  match o with NoTrans => A i j | Trans => A j i | ConjTrans => fconj (A j i) end.
Definition in_tri (u : uplo) (i j : Z) : bool := match u with Lower => (j <=? i)%Z | Upper => (i <=? j)%Z end.
(** the triangular matrix stored in the u triangle of A *)
Definition trim (u : uplo) (d : diag) (A : mat) : mat := fun i j =>
  if (i =? j)%Z then match d with Unit => 1 | NonUnit => A i j end else if in_tri u i j then A i j else 0.
(** the Hermitian matrix stored in the u triangle of A *)
Definition herm (u : uplo) (A : mat) : mat := fun i j => if in_tri u i j then A i j else fconj (A j i).
(** product of matrices with inner dimension k *)
Definition mmul (k : Z) (A B : mat) : mat := fun i j => fsum 0 k (fun r => A i r * B r j).
Definition ident : mat := fun i j => if (i =? j)%Z then 1 else 0.
Definition meq (m n : Z) (A B : mat) : Prop := forall i j, (0 <= i < m)%Z -> (0 <= j < n)%Z -> A i j = B i j.
(** equal in the u triangle / outside the u triangle (n x n) *)
Definition meq_tri (u : uplo) (n : Z) (A B : mat) : Prop :=
  forall i j, (0 <= i < n)%Z -> (0 <= j < n)%Z -> in_tri u i j = true -> A i j = B i j.
Definition meq_out (u : uplo) (n : Z) (A B : mat) : Prop :=
  forall i j, (0 <= i < n)%Z -> (0 <= j < n)%Z -> in_tri u i j = false -> A i j = B i j.
Definition real (x : F K) : Prop := fconj x = x.
Definition real_diag (n : Z) (A : mat) : Prop := forall i, (0 <= i < n)%Z -> real (A i i).
Definition nonsingular (d : diag) (n : Z) (A : mat) : Prop :=
  match d with Unit => True | NonUnit => forall i, (0 <= i < n)%Z -> A i i <> 0 end.

(** C' = al op_a(A) op_b(B) + be C *)
Definition is_gemm oa ob (m n k : Z) al A B be C (C' : mat) : Prop :=
  meq m n C' (fun i j => al * mmul k (opm oa A) (opm ob B) i j + be * C i j).
(** C' = al A B + be C or al B A + be C, A Hermitian *)
Definition is_hemm s u (m n : Z) al A B be C (C' : mat) : Prop :=
  meq m n C' (fun i j => al * match s with Left => mmul m (herm u A) B i j | Right => mmul n B (herm u A) i j end + be * C i j).
(** op(A) op(A)^H *)
Definition gram o k (A B : mat) : mat :=
  match o with NoTrans => mmul k A (opm ConjTrans B) | _ => mmul k (opm ConjTrans A) B end.
Definition is_herk u o (n k : Z) al A be C (C' : mat) : Prop :=
  meq_tri u n C' (fun i j => al * gram o k A A i j + be * C i j) /\ meq_out u n C' C.
Definition is_her2k u o (n k : Z) al A B be C (C' : mat) : Prop :=
  meq_tri u n C' (fun i j => al * gram o k A B i j + fconj al * gram o k B A i j + be * C i j) /\ meq_out u n C' C.
(** B' = al op(A) B or al B op(A), A triangular *)
Definition is_trmm s u o d (m n : Z) al A B (B' : mat) : Prop :=
  meq m n B' (fun i j => al * match s with Left => mmul m (opm o (trim u d A)) B i j | Right => mmul n B (opm o (trim u d A)) i j end).
(** op(A) X = al B or X op(A) = al B, A triangular *)
Definition is_trsm s u o d (m n : Z) al A B (X : mat) : Prop :=
  meq m n (fun i j => match s with Left => mmul m (opm o (trim u d A)) X i j | Right => mmul n X (opm o (trim u d A)) i j end)
          (fun i j => al * B i j).
(** T T^H = A (lower), T^H T = A (upper) *)
Definition is_factor u (n : Z) A (T : mat) : Prop :=
  (forall i, (0 <= i < n)%Z -> fpos (T i i)) /\
  meq_tri u n (match u with
    | Lower => mmul n (trim Lower NonUnit T) (opm ConjTrans (trim Lower NonUnit T))
    | Upper => mmul n (opm ConjTrans (trim Upper NonUnit T)) (trim Upper NonUnit T) end) A.
Definition is_potrf u (n : Z) A (A' : mat) : Prop := is_factor u n A A' /\ meq_out u n A' A.
(** T C T^H = A (lower), T^H C T = A (upper), A and C Hermitian *)
Definition is_hegst u (n : Z) A T (A' : mat) : Prop :=
  meq n n (match u with
    | Lower => mmul n (mmul n (trim Lower NonUnit T) (herm Lower A')) (opm ConjTrans (trim Lower NonUnit T))
    | Upper => mmul n (mmul n (opm ConjTrans (trim Upper NonUnit T)) (herm Upper A')) (trim Upper NonUnit T) end) (herm u A) /\
  real_diag n A' /\ meq_out u n A' A.
(** the inverse of the triangular matrix *)
Definition is_trtri u d (n : Z) A (A' : mat) : Prop :=
  meq n n (mmul n (trim u d A) (trim u d A')) ident /\ meq n n (mmul n (trim u d A') (trim u d A)) ident /\
  meq_out u n A' A /\ (d = Unit -> forall i, (0 <= i < n)%Z -> A' i i = A i i).
(** T^H T (lower), T T^H (upper) *)
Definition is_lauum u (n : Z) A (A' : mat) : Prop :=
  meq_tri u n A' (match u with
    | Lower => mmul n (opm ConjTrans (trim Lower NonUnit A)) (trim Lower NonUnit A)
    | Upper => mmul n (trim Upper NonUnit A) (opm ConjTrans (trim Upper NonUnit A)) end) /\
  meq_out u n A' A.

(** ** Kernels: what a BLAS/LAPACK library provides, and what is assumed about it *)
Record kernels := Kernels {
  gemm : op -> op -> Z -> Z -> Z -> F K -> mat -> mat -> F K -> mat -> mat;
  hemm : side -> uplo -> Z -> Z -> F K -> mat -> mat -> F K -> mat -> mat;
  herk : uplo -> op -> Z -> Z -> F K -> mat -> F K -> mat -> mat;
  her2k : uplo -> op -> Z -> Z -> F K -> mat -> mat -> F K -> mat -> mat;
  trmm : side -> uplo -> op -> diag -> Z -> Z -> F K -> mat -> mat -> mat;
  trsm : side -> uplo -> op -> diag -> Z -> Z -> F K -> mat -> mat -> mat;
  potrf : uplo -> Z -> mat -> mat;
  hegst : uplo -> Z -> mat -> mat -> mat;
  trtri : uplo -> diag -> Z -> mat -> mat;
  lauum : uplo -> Z -> mat -> mat }.

(** herk and her2k are called with NoTrans or ConjTrans only (Trans is not allowed in complex BLAS);
    Hermitian arguments must have a real diagonal, lauum assumes that too (zlauum). *)
Record kernels_ok (k : kernels) : Prop := {
  gemm_ok : forall oa ob m n kk al A B be C, is_gemm oa ob m n kk al A B be C (gemm k oa ob m n kk al A B be C);
  hemm_ok : forall s u m n al A B be C, real_diag (match s with Left => m | Right => n end) A ->
      is_hemm s u m n al A B be C (hemm k s u m n al A B be C);
  herk_ok : forall u o n kk al A be C, o <> Trans -> real al -> real be -> real_diag n C -> is_herk u o n kk al A be C (herk k u o n kk al A be C);
  her2k_ok : forall u o n kk al A B be C, o <> Trans -> real be -> real_diag n C -> is_her2k u o n kk al A B be C (her2k k u o n kk al A B be C);
  trmm_ok : forall s u o d m n al A B, is_trmm s u o d m n al A B (trmm k s u o d m n al A B);
  trsm_ok : forall s u o d m n al A B, nonsingular d (match s with Left => m | Right => n end) A ->
      is_trsm s u o d m n al A B (trsm k s u o d m n al A B);
  potrf_ok : forall u n A, (exists T, is_factor u n A T) -> is_potrf u n A (potrf k u n A);
  hegst_ok : forall u n A T, nonsingular NonUnit n T -> real_diag n A -> is_hegst u n A T (hegst k u n A T);
  trtri_ok : forall u d n A, nonsingular d n A -> is_trtri u d n A (trtri k u d n A);
  lauum_ok : forall u n A, real_diag n A -> is_lauum u n A (lauum k u n A) }.
End spec.
Arguments mat : clear implicits.
Arguments kernels : clear implicits.
