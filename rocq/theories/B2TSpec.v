(** * What is assumed of lapack::larfg, and a larfg that satisfies it *)
From Coq Require Import ZArith Lia List Bool Ring.
From Verif Require Import Loop StarField DenseSpec RefKernels HouseSpec HouseQR HouseModel B2TModel B2TFrame.
Import ListNotations.
Local Open Scope Z_scope.

Section spec.
Context {K : starfield}.
Local Open Scope sf_scope.
(** the vector of the reflector *)
Definition house_v (u : Z -> F K) : Z -> F K := fun i => if (i =? 0)%Z then 1 else u i.
(** (beta, u, tau) = larfg(n, x): H = I - tau v v^H, v = (1, u), is unitary, H^H x = (beta, 0, ..., 0), beta is real;
    the result depends on x_0, ..., x_(n-1) only *)
Definition larfg_ok (lf : larfg_fn K) : Prop := larfg_local lf /\
  forall n x, (0 < n)%Z -> let '(beta, u, tau) := lf n x in
    fconj beta = beta /\ unitary n (reflector tau (house_v u)) /\
    forall i, (0 <= i < n)%Z -> fsum 0 n (fun r => adj (reflector tau (house_v u)) i r * x r) = if (i =? 0)%Z then beta else 0.

(** LAPACK's larfg in exact arithmetic *)
Definition ref_larfg (rs : roots K) : larfg_fn K := fun n x =>
  if feq_dec K (norm2 (n - 1) (fun i => x (1 + i)%Z)) 0 then
    if feq_dec K (fconj (x 0%Z)) (x 0%Z) then (x 0%Z, (fun _ => 0), 0) else
    let y := if neg rs (x 0%Z) then rt rs (norm2 n x) else - rt rs (norm2 n x) in
    (y, (fun i => x i * finv (x 0%Z - y)), (y - x 0%Z) * finv y)
  else
    let y := if neg rs (x 0%Z) then rt rs (norm2 n x) else - rt rs (norm2 n x) in
    (y, (fun i => x i * finv (x 0%Z - y)), (y - x 0%Z) * finv y).
End spec.

Section ref.
Context {K : starfield} (rs : roots K).
Local Open Scope sf_scope.
Add Ring KringSP : (fring K).
Lemma norm2_ext : forall n (x y : Z -> F K), (forall i, (0 <= i < n)%Z -> x i = y i) -> norm2 n x = norm2 n y.
Proof. intros n x y E. apply fsum_ext. intros i Li. rewrite E by exact Li. reflexivity. Qed.
Lemma refl_case : forall n (x : Z -> F K), (0 < n)%Z -> norm2 n x <> 0 ->
  let y := if neg rs (x 0%Z) then rt rs (norm2 n x) else - rt rs (norm2 n x) in
  let u := fun i => x i * finv (x 0%Z - y) in let tau := (y - x 0%Z) * finv y in
  fconj y = y /\ unitary n (reflector tau (house_v u)) /\
  forall i, (0 <= i < n)%Z -> fsum 0 n (fun r => adj (reflector tau (house_v u)) i r * x r) = if (i =? 0)%Z then y else 0.
Proof.
  intros n x Ln N. cbv zeta. pose proof (rt_sq K rs n x N) as S. pose proof (rt_real K rs n x N) as R. pose proof (rt_head K rs n x Ln N) as H.
  set (y := if neg rs (x 0%Z) then rt rs (norm2 n x) else - rt rs (norm2 n x)) in *. set (x0 := x 0%Z) in *. set (u := finv (x0 - y)).
  assert (YY : y * y = norm2 n x). { unfold y. destruct (neg rs x0); [exact S|]. transitivity (rt rs (norm2 n x) * rt rs (norm2 n x)); [ring|exact S]. }
  assert (YR : fconj y = y). { unfold y. destruct (neg rs x0); [exact R|]. rewrite fconj_opp, R. reflexivity. }
  assert (YN : y <> 0) by (intros Y; apply N; rewrite <- YY, Y; ring).
  assert (XN : x0 - y <> 0) by (intros Q; apply H; replace x0 with (x0 - y + y) by ring; rewrite Q; ring).
  set (rest := fsum 1 n (fun i => fconj (x i) * x i)).
  assert (SR : norm2 n x = fconj x0 * x0 + rest) by (unfold norm2; rewrite fsum_cons by lia; reflexivity).
  assert (RE : rest = y * y - fconj x0 * x0) by (rewrite YY, SR; ring).
  pose proof (finv_l K _ XN) as U. fold u in U.
  assert (CU : fconj u * (fconj x0 - y) = 1). { rewrite <- YR at 1. rewrite <- fconj_sub, <- fconj_mul, U. apply fconj_1. }
  pose proof (finv_l K _ YN) as I0.
  assert (CI : fconj (finv y) = finv y). { apply (fmul_cancel_r _ _ y YN). rewrite I0. rewrite <- YR at 2. rewrite <- fconj_mul, I0. apply fconj_1. }
  split; [exact YR|]. split.
  - apply refl_unitary.
    assert (NV : norm2 n (house_v (fun i => x i * u)) = 1 + fconj u * u * rest).
    { unfold norm2. rewrite fsum_cons by lia. unfold house_v at 1 2. cbn [Z.eqb]. rewrite fconj_1. change (0 + 1)%Z with 1%Z.
      rewrite (fsum_ext 1 n _ (fun a => fconj u * u * (fconj (x a) * x a))).
      - rewrite fsum_mul_l. fold rest. ring.
      - intros a La. unfold house_v. destruct (Z.eqb_spec a 0); [lia|]. rewrite fconj_mul. ring. }
    rewrite NV, RE, fconj_mul, fconj_sub, YR, CI. set (i := finv y) in *. set (cx := fconj x0) in *. set (cu := fconj u) in *.
    transitivity (i * i * ((y - x0) * (y - cx)) + i * i * (u * (x0 - y)) * (cu * (cx - y)) * (y * y - cx * x0)); [|ring].
    rewrite U, CU. transitivity ((i * y) * i * (y - x0 + (y - cx))); [rewrite I0; ring|ring].
  - intros i Li. set (v := house_v (fun i => x i * u)). set (tau := (y - x0) * finv y).
    rewrite (fsum_ext 0 n _ (fun r => reflector (fconj tau) v i r * (fun r (_ : Z) => x r) r 0%Z)) by (intros r _; rewrite adj_reflector; reflexivity).
    change (mmul n (reflector (fconj tau) v) (fun r (_ : Z) => x r) i 0%Z = if (i =? 0)%Z then y else 0). rewrite mmul_refl_l by exact Li.
    assert (VX : fsum 0 n (fun r => fconj (v r) * x r) = x0 + fconj u * rest).
    { rewrite fsum_cons by lia. unfold v at 1, house_v. cbn [Z.eqb]. rewrite fconj_1. fold x0. change (0 + 1)%Z with 1%Z. rewrite (fsum_ext 1 n _ (fun a => fconj u * (fconj (x a) * x a))).
      - rewrite fsum_mul_l. fold rest. ring.
      - intros r Lr. unfold v, house_v. destruct (Z.eqb_spec r 0); [lia|]. rewrite fconj_mul. ring. }
    assert (G : fconj tau * (x0 + fconj u * rest) = x0 - y).
    { rewrite RE. unfold tau. rewrite fconj_mul, fconj_sub, YR, CI. set (i0 := finv y) in *. set (cx := fconj x0) in *. set (cu := fconj u) in *.
      transitivity (i0 * ((y - cx) * x0) - i0 * (cu * (cx - y)) * (y * y - cx * x0)); [ring|]. rewrite CU.
      transitivity ((i0 * y) * (x0 - y)); [ring|rewrite I0; ring]. }
    rewrite VX. transitivity (x i - v i * (fconj tau * (x0 + fconj u * rest))); [ring|]. rewrite G. unfold v, house_v.
    destruct (Z.eqb_spec i 0) as [->|Ni]; [fold x0; ring|]. transitivity (x i * (1 - u * (x0 - y))); [ring|]. rewrite U. ring.
Qed.
Lemma ref_larfg_ok : larfg_ok (ref_larfg rs).
Proof.
  split.
  - intros n x x' Ln E. assert (E0 := E 0%Z ltac:(lia)). unfold ref_larfg. rewrite E0.
    rewrite (norm2_ext (n - 1) (fun i => x (1 + i)%Z) (fun i => x' (1 + i)%Z)) by (intros i Li; apply E; lia). rewrite (norm2_ext n x x' E).
    destruct (feq_dec K (norm2 (n - 1) (fun i => x' (1 + i)%Z)) 0); [destruct (feq_dec K (fconj (x' 0%Z)) (x' 0%Z))|]; cbn [fst snd].
    + split; [reflexivity|]. split; reflexivity.
    + split; [reflexivity|]. split; [reflexivity|]. intros i Li. rewrite E by lia. reflexivity.
    + split; [reflexivity|]. split; [reflexivity|]. intros i Li. rewrite E by lia. reflexivity.
  - intros n x Ln. unfold ref_larfg. destruct (feq_dec K (norm2 (n - 1) (fun i => x (1 + i)%Z)) 0) as [Z0|N0]; [destruct (feq_dec K (fconj (x 0%Z)) (x 0%Z)) as [R0|NR]|].
    + split; [exact R0|]. split; [apply refl_unitary; rewrite fconj_0; ring|]. intros i Li.
      rewrite (fsum_ext 0 n _ (fun r => ident i r * x r)) by (intros r _; rewrite adj_reflector; unfold reflector; rewrite fconj_0; ring).
      change (mmul n ident (fun r (_ : Z) => x r) i 0%Z = if (i =? 0)%Z then x 0%Z else 0). rewrite mmul_ident_l by exact Li.
      destruct (Z.eqb_spec i 0) as [->|Ni]; [reflexivity|]. pose proof (rt_definite K rs _ _ Z0 (i - 1) ltac:(lia)) as D. cbn beta in D. replace (1 + (i - 1))%Z with i in D by lia. exact D.
    + apply refl_case; [exact Ln|]. intros Q. apply NR. rewrite (rt_definite K rs n x Q 0%Z ltac:(lia)). apply fconj_0.
    + apply refl_case; [exact Ln|]. intros Q. apply N0. apply fsum_0. intros i Li. rewrite (rt_definite K rs n x Q (1 + i)%Z ltac:(lia)). ring.
Qed.
End ref.
