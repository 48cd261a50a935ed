(** * What band_to_tridiagonal returns (eigensolver/band_to_tridiag.h:26-64), independently of the algorithm *)
From Coq Require Import ZArith Lia List Bool.
From Verif Require Import Loop StarField DenseSpec HouseSpec HouseModel Red2BandSpec.
Import ListNotations.
Local Open Scope Z_scope.

Section spec.
Context {K : starfield}.
Local Open Scope sf_scope.
(** number of sweeps, number of reflectors of sweep sw (m is the size of the matrix, b the band size) *)
Definition hht_sweeps (cplx : bool) (m : Z) : Z := if cplx then (m - 1)%Z else (m - 2)%Z.
Definition hht_count (m b sw : Z) : Z := if (sw =? m - 2)%Z then 1%Z else ceil_div (m - sw - 2) b.
(** where the reflector HHT(sw, st) acts and where it is stored *)
Definition hht_start (b sw st : Z) : Z := (1 + sw + st * b)%Z.
Definition hht_len (m b sw st : Z) : Z := Z.min b (m - hht_start b sw st).
Definition hht_pos (b sw st : Z) : Z := ((sw / b + st) * b)%Z.
Definition hht_vec (m b : Z) (V : mat K) (sw st : Z) : Z -> F K := fun i =>
  let start := hht_start b sw st in
  if (i =? start)%Z then 1 else if ((start <? i) && (i <? start + hht_len m b sw st))%Z then V (hht_pos b sw st + (i - start))%Z sw else 0.
Definition hht (m b : Z) (V : mat K) (p : Z * Z) : mat K := reflector (V (hht_pos b (fst p) (snd p)) (fst p)) (hht_vec m b V (fst p) (snd p)).
(** HHT(0, 0) HHT(0, 1) ... HHT(1, 0) ... *)
Definition hht_list (cplx : bool) (m b : Z) : list (Z * Z) := flat_map (fun sw => map (pair sw) (zrange 0 (hht_count m b sw))) (zrange 0 (hht_sweeps cplx m)).
Definition hht_product (m b : Z) (V : mat K) (ps : list (Z * Z)) : mat K := fold_left (fun Q p => mmul m Q (hht m b V p)) ps ident.
(** the symmetric tridiagonal matrix with diagonal d and off-diagonal e *)
Definition tridiag (d e : Z -> F K) : mat K := fun i j =>
  if (i =? j)%Z then d i else if (i =? j + 1)%Z then e j else if (j =? i + 1)%Z then e i else 0.
(** A: the input, of which the lower triangle of the band is used; V: the reflectors; d, e: the tridiagonal matrix *)
Definition is_tridiagonal_reduction (cplx : bool) (m b : Z) (A V : mat K) (d e : Z -> F K) : Prop :=
  let Q := hht_product m b V (hht_list cplx m b) in
  unitary m Q /\ (forall i, (0 <= i < m)%Z -> fconj (d i) = d i) /\ (forall i, (0 <= i < m - 1)%Z -> fconj (e i) = e i) /\
  meq m m (band b (herm Lower A)) (conjugate m Q (tridiag d e)).
End spec.
(** eigenpairs; M y *)
Section eigen.
Context {K : starfield}.
Local Open Scope sf_scope.
Definition mvec (m : Z) (M : mat K) (y : Z -> F K) : Z -> F K := fun i => fsum 0 m (fun r => M i r * y r).
Definition is_eigenpair (m : Z) (M : mat K) (lam : F K) (y : Z -> F K) : Prop := forall i, (0 <= i < m)%Z -> mvec m M y i = lam * y i.
End eigen.
