(** * What reduction_to_band (C44) and bt_reduction_to_band (C45) are to compute (independent of the algorithms). *)
From Coq Require Import ZArith Lia List Bool.
From Verif Require Import Loop StarField DenseSpec DenseJobs HouseSpec Red2BandModel.
Import ListNotations.
Local Open Scope Z_scope.

Section spec.
Context {K : starfield}.
Local Open Scope sf_scope.
(** the matrix and the vector of taus in a state: element (a, q) is in tile (a / mb, q / mb) *)
Definition r2b_mat (mb : Z) (st : tstore (mat K)) : mat K := fun a q => st (rA (a / mb) (q / mb)) (a mod mb)%Z (q mod mb)%Z.
Definition r2b_taus (b : Z) (st : tstore (mat K)) : Z -> F K := fun r => st (rTau (r / b)) (r mod b)%Z 0%Z.
(** The Householder vectors stored below the band: vector r is zero above row r + b, one in row r + b, and
    below it is what is stored in column r. *)
Definition band_vectors (b : Z) (A : mat K) : mat K := fun a r => if (a <? r + b)%Z then 0 else if (a =? r + b)%Z then 1 else A a r.
(** A without what is below the b-th subdiagonal of its first k columns *)
Definition band_upto (b k : Z) (A : mat K) : mat K := fun a c => if ((c <? k) && (c + b <? a))%Z then 0 else A a c.
(** the lower part of the band *)
Definition lower_band (b : Z) (A : mat K) : mat K := fun a c => if (c + b <? a)%Z then 0 else A a c.
(** Q A Q^H *)
Definition conjugate (n : Z) (Q A : mat K) : mat K := mmul n Q (mmul n A (adj Q)).
(** the entries of A at distance at most b from the diagonal, zero elsewhere *)
Definition band (b : Z) (A : mat K) : mat K := fun a c => if (Z.abs (a - c) <=? b)%Z then A a c else 0.
(** The result of the reduction: with Q = H_0 H_1 ... H_(nr-1), nr = n - b - 1, whose vectors are stored below the band of A',
    Q is unitary, A = Q B Q^H, B the band matrix stored in the lower triangle of A' (with real diagonal); the strict upper
    triangle of A' is the one of A0. *)
Definition q_of (n b : Z) (A : mat K) (taus : Z -> F K) : mat K :=
  refl_prod n (band_vectors b A) taus (Z.to_nat (n - b - 1)).
Definition is_band_reduction (n b : Z) (A0 A : mat K) (taus : Z -> F K) : Prop :=
  unitary n (q_of n b A taus) /\ real_diag n A /\
  meq n n (herm Lower A0) (conjugate n (q_of n b A taus) (band b (herm Lower A))) /\
  forall a c, (0 <= a < n)%Z -> (0 <= c < n)%Z -> (a < c)%Z -> A a c = A0 a c.
End spec.
