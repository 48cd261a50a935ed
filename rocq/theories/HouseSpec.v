(** * Householder reflectors: the mathematical objects (independent of the code). *)
From Coq Require Import ZArith Lia List Bool.
From Verif Require Import Loop StarField DenseSpec.
Import ListNotations.
Local Open Scope Z_scope.

Section spec.
Context {K : starfield}.
Local Open Scope sf_scope.

Definition adj (A : mat K) : mat K := opm ConjTrans A.
Definition madd (A B : mat K) : mat K := fun i j => A i j + B i j.
Definition msub (A B : mat K) : mat K := fun i j => A i j - B i j.
(** Q is a unitary (orthogonal, over a field with trivial conjugation) m x m matrix *)
Definition unitary (m : Z) (Q : mat K) : Prop :=
  meq m m (mmul m (adj Q) Q) ident /\ meq m m (mmul m Q (adj Q)) ident.
(** The elementary reflector I - tau v v^H *)
Definition reflector (tau : F K) (v : Z -> F K) : mat K := fun i j => ident i j - tau * v i * fconj (v j).
(** H_0 H_1 ... H_(k-1), where H_j has the j-th column of V as its vector *)
Fixpoint refl_prod (m : Z) (V : mat K) (tau : Z -> F K) (k : nat) : mat K :=
  match k with
  | O => ident
  | S k => mmul m (refl_prod m V tau k) (reflector (tau (Z.of_nat k)) (fun i => V i (Z.of_nat k)))
  end.
(** The reflectors stored in the first k columns of P: column j has a 1 in row j and the entries of P below *)
Definition unit_lower (P : mat K) : mat K := fun i j => if (i =? j)%Z then 1 else if (j <? i)%Z then P i j else 0.
(** what is left of P once the entries below the diagonal of its first k columns are zeroed *)
Definition upper_part (k : Z) (P : mat K) : mat K := fun i j => if ((j <? k) && (j <? i))%Z then 0 else P i j.
(** squared norm of x_0 ... x_(n-1) *)
Definition norm2 (n : Z) (x : Z -> F K) : F K := fsum 0 n (fun i => fconj (x i) * x i).
End spec.

(** ** Scalars with square roots: what the Householder code needs of real and complex numbers.
    [rt] is std::sqrt, [neg] is std::signbit(std::real(.)). *)
Record roots (K : starfield) := Roots {
  rt : F K -> F K;
  neg : F K -> bool;
  rt_definite : forall n (x : Z -> F K), norm2 n x = f0 -> forall i, 0 <= i < n -> x i = f0;
  rt_sq : forall n (x : Z -> F K), norm2 n x <> f0 -> fmul (rt (norm2 n x)) (rt (norm2 n x)) = norm2 n x;
  rt_real : forall n (x : Z -> F K), norm2 n x <> f0 -> fconj (rt (norm2 n x)) = rt (norm2 n x);
  rt_head : forall n (x : Z -> F K), 0 < n -> norm2 n x <> f0 ->
    x 0 <> (if neg (x 0) then rt (norm2 n x) else fopp (rt (norm2 n x))) }.
Arguments rt {_} _ _. Arguments neg {_} _ _.
