(** * What the eigensolvers are to compute (eigensolver.h:72-79, gen_eigensolver.h:160-170), independently of the algorithms. *)
From Coq Require Import ZArith List Bool.
From Verif Require Import StarField DenseSpec HouseSpec.
Local Open Scope Z_scope.

Section spec.
Context {K : starfield}.
(** The first k columns of E are orthonormal eigenvectors of the n x n matrix A, for the eigenvalues lam 0, ..., lam (k-1), which are real. *)
Definition is_eigendecomposition (n k : Z) (A : mat K) (lam : Z -> F K) (E : mat K) : Prop :=
  meq n k (mmul n A E) (fun i c => fmul (lam c) (E i c)) /\ meq k k (mmul n (adj E) E) ident /\
  (forall c, 0 <= c < k -> fconj (lam c) = lam c).
(** The first k columns of X are eigenvectors of the pencil (A, B), orthonormal with respect to B. *)
Definition is_gen_eigendecomposition (n k : Z) (A B : mat K) (lam : Z -> F K) (X : mat K) : Prop :=
  meq n k (mmul n A X) (fun i c => fmul (lam c) (mmul n B X i c)) /\ meq k k (mmul n (adj X) (mmul n B X)) ident /\
  (forall c, 0 <= c < k -> fconj (lam c) = lam c).
End spec.
