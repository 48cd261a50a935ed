(** * The panel factorization is a QR factorization; the T factor represents the product of the reflectors *)
From Coq Require Import ZArith Lia List Bool Ring Permutation.
From Verif Require Import Loop StarField DenseSpec Tiling RefKernels HouseSpec HouseModel HouseProofs.
Import ListNotations.
Local Open Scope Z_scope.

Section algebra.
Context {K : starfield}.
Local Open Scope sf_scope.
Add Ring KringHQ : (fring K).
Implicit Types (A B Q : mat K) (v : Z -> F K).

Lemma mmul_refl_l : forall m tau v A i q, (0 <= i < m)%Z ->
  mmul m (reflector tau v) A i q = A i q - tau * v i * fsum 0 m (fun r => fconj (v r) * A r q).
Proof.
  intros m tau v A i q Li. unfold mmul, reflector.
  rewrite (fsum_ext 0 m _ (fun r => ident i r * A r q - (tau * v i) * (fconj (v r) * A r q))) by (intros; ring).
  rewrite fsum_sub, fsum_mul_l. f_equal. apply (mmul_ident_l m A i q Li).
Qed.
Lemma mmul_refl_r : forall m tau v A i q, (0 <= q < m)%Z ->
  mmul m A (reflector tau v) i q = A i q - tau * fsum 0 m (fun r => A i r * v r) * fconj (v q).
Proof.
  intros m tau v A i q Lq. unfold mmul, reflector.
  rewrite (fsum_ext 0 m _ (fun r => A i r * ident r q - (A i r * v r) * (tau * fconj (v q)))) by (intros; ring).
  rewrite fsum_sub, fsum_mul_r. replace (fsum 0 m (fun i0 => A i i0 * ident i0 q)) with (A i q); [ring|]. symmetry. apply (mmul_ident_r m A i q Lq).
Qed.
Lemma ident_sym : forall i j, @ident K i j = ident j i.
Proof. intros. unfold ident. destruct (Z.eqb_spec i j), (Z.eqb_spec j i); try lia; reflexivity. Qed.
Lemma conj_ident : forall i j, fconj (@ident K i j) = ident i j.
Proof. intros. unfold ident. destruct (i =? j)%Z; [apply fconj_1|apply fconj_0]. Qed.
Lemma adj_reflector : forall tau v i j, adj (reflector tau v) i j = reflector (fconj tau) v i j.
Proof.
  intros. unfold adj, opm, reflector. rewrite fconj_sub, !fconj_mul, fconj_conj, conj_ident, ident_sym. ring.
Qed.
Lemma adj_ident : forall i j, adj (@ident K) i j = ident i j.
Proof. intros. unfold adj, opm. rewrite conj_ident. apply ident_sym. Qed.
Lemma refl_unitary : forall m tau v, tau + fconj tau = tau * fconj tau * norm2 m v -> unitary m (reflector tau v).
Proof.
  intros m tau v E.
  assert (G : forall s, (s = tau \/ s = fconj tau) -> meq m m (mmul m (reflector s v) (reflector (fconj s) v)) ident).
  { intros s S i j Li Lj. rewrite mmul_refl_l by assumption. unfold reflector at 1.
    replace (fsum 0 m (fun r => fconj (v r) * reflector (fconj s) v r j)) with (fconj (v j) - fconj s * norm2 m v * fconj (v j)).
    - assert (E' : s + fconj s = s * fconj s * norm2 m v).
      { destruct S as [-> | ->]; [exact E|]. rewrite fconj_conj. transitivity (tau + fconj tau); [ring|]. rewrite E. ring. }
      transitivity (ident i j - (s + fconj s - s * fconj s * norm2 m v) * v i * fconj (v j)); [ring|]. rewrite E'. ring.
    - unfold reflector, norm2. rewrite <- (mmul_ident_r m (fun _ r => fconj (v r)) 0%Z j Lj) at 1. unfold mmul.
      transitivity (fsum 0 m (fun r => fconj (v r) * ident r j) - fsum 0 m (fun r => (fconj (v r) * v r) * (fconj s * fconj (v j)))); [rewrite fsum_mul_r; ring|].
      rewrite <- fsum_sub. apply fsum_ext. intros; ring. }
  split.
  - intros i j Li Lj. rewrite <- (G (fconj tau) ltac:(auto) i j Li Lj). rewrite fconj_conj.
    apply fsum_ext. intros r Lr. rewrite adj_reflector. reflexivity.
  - intros i j Li Lj. rewrite <- (G tau ltac:(auto) i j Li Lj). apply fsum_ext. intros r Lr. rewrite adj_reflector. reflexivity.
Qed.
Lemma unitary_ident : forall m, unitary m (@ident K).
Proof.
  intros m. split; intros i j Li Lj.
  - rewrite mmul_ident_r by assumption. apply adj_ident.
  - rewrite mmul_ident_l by assumption. apply adj_ident.
Qed.
Lemma adj_mmul : forall m A B i j, adj (mmul m A B) i j = mmul m (adj B) (adj A) i j.
Proof. intros. apply opm_mmul. Qed.
Lemma adj_adj : forall A i j, adj (adj A) i j = A i j.
Proof. intros. apply opm_invol. Qed.
Lemma mmul_ext : forall m A A' B B' i j, (forall r, (0 <= r < m)%Z -> A i r = A' i r) -> (forall r, (0 <= r < m)%Z -> B r j = B' r j) ->
  mmul m A B i j = mmul m A' B' i j.
Proof. intros m A A' B B' i j E1 E2. apply fsum_ext. intros r Lr. rewrite E1, E2 by assumption. reflexivity. Qed.
Lemma unitary_mul : forall m A B, unitary m A -> unitary m B -> unitary m (mmul m A B).
Proof.
  intros m A B [A1 A2] [B1 B2]. split; intros i j Li Lj.
  - rewrite (mmul_ext m _ (mmul m (adj B) (adj A)) _ (mmul m A B)) by (intros; first [apply adj_mmul | reflexivity]).
    rewrite mmul_assoc. rewrite (mmul_ext m _ (adj B) _ B); [apply B1; assumption|reflexivity|].
    intros r Lr. rewrite <- mmul_assoc. rewrite (mmul_ext m _ ident _ B); [apply mmul_ident_l; assumption| |reflexivity].
    intros s Ls. apply A1; assumption.
  - rewrite (mmul_ext m _ (mmul m A B) _ (mmul m (adj B) (adj A))) by (intros; first [apply adj_mmul | reflexivity]).
    rewrite mmul_assoc. rewrite (mmul_ext m _ A _ (adj A)); [apply A2; assumption|reflexivity|].
    intros r Lr. rewrite <- mmul_assoc. rewrite (mmul_ext m _ ident _ (adj A)); [apply mmul_ident_l; assumption| |reflexivity].
    intros s Ls. apply B2; assumption.
Qed.
Lemma unitary_ext : forall m A B, meq m m A B -> unitary m A -> unitary m B.
Proof.
  intros m A B E [A1 A2]. assert (E' : meq m m (adj A) (adj B)) by (intros i j Li Lj; unfold adj, opm; rewrite E by assumption; reflexivity).
  split; intros i j Li Lj.
  - rewrite <- (A1 i j Li Lj). apply mmul_ext; intros; symmetry; [apply E'|apply E]; assumption.
  - rewrite <- (A2 i j Li Lj). apply mmul_ext; intros; symmetry; [apply E|apply E']; assumption.
Qed.
Lemma refl_prod_ext : forall m (V V' : mat K) (tau tau' : Z -> F K) k, (forall i c, (0 <= i < m)%Z -> (0 <= c < Z.of_nat k)%Z -> V i c = V' i c) ->
  (forall c, (0 <= c < Z.of_nat k)%Z -> tau c = tau' c) -> meq m m (refl_prod m V tau k) (refl_prod m V' tau' k).
Proof.
  intros m V V' tau tau'. induction k as [|k IH]; intros E1 E2 i j Li Lj; [reflexivity|]. cbn [refl_prod].
  apply mmul_ext; intros r Lr.
  - apply IH; try assumption; intros; [apply E1|apply E2]; lia.
  - unfold reflector. rewrite E2 by lia. rewrite !E1 by lia. reflexivity.
Qed.
Lemma refl_prod_unitary : forall m (V : mat K) (tau : Z -> F K) k, (forall c, (0 <= c < Z.of_nat k)%Z -> unitary m (reflector (tau c) (fun i => V i c))) ->
  unitary m (refl_prod m V tau k).
Proof.
  intros m V tau. induction k as [|k IH]; intros H; [apply unitary_ident|]. cbn [refl_prod].
  apply unitary_mul; [apply IH; intros; apply H; lia|apply H; lia].
Qed.
End algebra.

Section qr.
Context {K : starfield} (rs : roots K) (t : tiling).
Hypothesis TOK : tiling_ok t.
Hypothesis NT : 0 < tl_n t.
Let m := tl_size t.
Local Open Scope sf_scope.
Add Ring KringHQ2 : (fring K).
Implicit Types M : mat K.

(** the numbers of one reflector *)
Lemma house_facts : forall M j, (0 <= j < m)%Z -> m_sq t M j <> 0 ->
  m_y t rs M j * m_y t rs M j = m_sq t M j /\ fconj (m_y t rs M j) = m_y t rs M j /\ m_y t rs M j <> 0 /\ M j j - m_y t rs M j <> 0.
Proof using.
  intros M j Lj N. set (x := fun i => M (j + i)%Z j). assert (SQ : m_sq t M j = norm2 (m - j) x).
  { unfold m_sq, norm2. fold m. replace (fsum j m (fun a => fconj (M a j) * M a j)) with (fsum (0 + j) (m - j + j) (fun a => fconj (M a j) * M a j)) by (f_equal; lia).
    rewrite fsum_shift. apply fsum_ext. intros i _. unfold x. replace (i + j)%Z with (j + i)%Z by lia. reflexivity. }
  assert (X0 : x 0%Z = M j j) by (unfold x; f_equal; lia).
  assert (N' := N). rewrite SQ in N'. pose proof (rt_sq K rs _ x N') as S. pose proof (rt_real K rs _ x N') as R. pose proof (rt_head K rs (m - j)%Z x ltac:(lia) N') as H.
  rewrite <- SQ in *. rewrite X0 in H. fold (m_y t rs M j) in H.
  assert (YY : m_y t rs M j * m_y t rs M j = m_sq t M j).
  { unfold m_y. destruct (neg rs (M j j)); [exact S|]. rewrite <- S at 3. ring. }
  split; [exact YY|]. split; [|split].
  - unfold m_y. destruct (neg rs (M j j)); [exact R|]. rewrite fconj_opp, R. reflexivity.
  - intros Y. apply N. rewrite <- YY, Y. ring.
  - intros Q. apply H. replace (M j j) with (M j j - m_y t rs M j + m_y t rs M j) by ring. rewrite Q. ring.
Qed.
(** sums with the vector of the reflector *)
Lemma fsum_head : forall (f : Z -> F K) j, (0 <= j < m)%Z -> (forall a, (0 <= a < j)%Z -> f a = 0) -> fsum 0 m f = f j + fsum (j + 1) m f.
Proof using. intros f j Lj Z0. rewrite (fsum_app 0 j m) by lia. rewrite (fsum_0 0 j) by exact Z0. rewrite (fsum_cons j) by lia. ring. Qed.
Definition rest M j := fsum (j + 1) m (fun a => fconj (M a j) * M a j).
Lemma sq_rest : forall M j, (0 <= j < m)%Z -> m_sq t M j = fconj (M j j) * M j j + rest M j.
Proof using. intros M j Lj. unfold m_sq, rest. fold m. rewrite fsum_cons by lia. reflexivity. Qed.
Lemma v_below : forall M j a, m_sq t M j <> 0 -> (j < a)%Z -> m_v t rs M j a = finv (M j j - m_y t rs M j) * M a j.
Proof using.
  intros M j a N L. unfold m_v, m_refl. destruct (Z.ltb_spec a j), (Z.eqb_spec a j); try lia. destruct (feq_dec K (m_sq t M j) 0); [contradiction|].
  rewrite Z.eqb_refl. destruct (Z.ltb_spec a j), (Z.eqb_spec a j); try lia. reflexivity.
Qed.
Lemma v_head : forall M j, m_v t rs M j j = 1.
Proof using. intros M j. unfold m_v. rewrite Z.ltb_irrefl, Z.eqb_refl. reflexivity. Qed.
Lemma v_above : forall M j a, (a < j)%Z -> m_v t rs M j a = 0.
Proof using. intros M j a L. unfold m_v. destruct (Z.ltb_spec a j); [reflexivity|lia]. Qed.
Lemma fconj_inv : forall x : F K, x <> 0 -> fconj (finv x) * fconj x = 1.
Proof using. intros x N. rewrite <- fconj_mul, finv_l by exact N. apply fconj_1. Qed.

Lemma house_unitary : forall M j, (0 <= j < m)%Z -> unitary m (reflector (m_tau t rs M j) (m_v t rs M j)).
Proof using.
  intros M j Lj. apply refl_unitary. unfold m_tau. destruct (feq_dec K (m_sq t M j) 0) as [Z0|N]; [rewrite fconj_0; ring|].
  destruct (house_facts M j Lj N) as (YY & YR & YN & XN). set (y := m_y t rs M j) in *. set (x0 := M j j) in *. set (u := finv (x0 - y)).
  assert (NV : norm2 m (m_v t rs M j) = 1 + fconj u * u * rest M j).
  { unfold norm2. rewrite (fsum_head _ j Lj) by (intros a La; rewrite v_above by lia; ring). rewrite v_head, fconj_1.
    rewrite (fsum_ext (j + 1) m _ (fun a => fconj u * u * (fconj (M a j) * M a j))).
    - rewrite fsum_mul_l. unfold rest. ring.
    - intros a La. rewrite v_below by (assumption || lia). fold x0 y u. rewrite fconj_mul. ring. }
  rewrite NV. assert (RE : rest M j = y * y - fconj x0 * x0) by (rewrite YY, (sq_rest M j Lj); fold x0; ring). rewrite RE.
  pose proof (finv_l K _ XN) as U. fold u in U. pose proof (fconj_inv _ XN) as CU. fold u in CU. rewrite fconj_sub, YR in CU.
  pose proof (finv_l K _ YN) as I0. pose proof (fconj_inv _ YN) as CI0. rewrite YR in CI0.
  assert (CI : fconj (finv y) = finv y). { apply (fmul_cancel_r _ _ y YN). rewrite I0. exact CI0. }
  rewrite fconj_mul, fconj_sub, YR, CI. set (i := finv y) in *. set (cx := fconj x0) in *. set (cu := fconj u) in *.
  transitivity (i * i * ((y - x0) * (y - cx)) + i * i * (u * (x0 - y)) * (cu * (cx - y)) * (y * y - cx * x0)); [|ring].
  rewrite U, CU. transitivity ((i * y) * i * (y - x0 + (y - cx))); [rewrite I0; ring|ring].
Qed.
(** H^H zeroes the column below its head, and puts y there *)
Lemma house_column : forall M j a, (0 <= j < m)%Z -> m_sq t M j <> 0 -> (j <= a < m)%Z ->
  M a j - fconj (m_tau t rs M j) * m_v t rs M j a * fsum j m (fun r => fconj (m_v t rs M j r) * M r j) = if (a =? j)%Z then m_y t rs M j else 0.
Proof using.
  intros M j a Lj N La. destruct (house_facts M j Lj N) as (YY & YR & YN & XN). set (y := m_y t rs M j) in *.
  set (x0 := M j j) in *. set (u := finv (x0 - y)).
  assert (VX : fsum j m (fun r => fconj (m_v t rs M j r) * M r j) = x0 + fconj u * rest M j).
  { rewrite (fsum_cons j) by lia. rewrite v_head, fconj_1. fold x0. rewrite (fsum_ext (j + 1) m _ (fun a => fconj u * (fconj (M a j) * M a j))).
    - rewrite fsum_mul_l. unfold rest. ring.
    - intros r Lr. rewrite v_below by (assumption || lia). fold x0 y u. rewrite fconj_mul. ring. }
  assert (RE : rest M j = y * y - fconj x0 * x0) by (rewrite YY, (sq_rest M j Lj); fold x0; ring).
  pose proof (finv_l K _ XN) as U. fold u in U. pose proof (fconj_inv _ XN) as CU. fold u in CU. rewrite fconj_sub, YR in CU.
  pose proof (finv_l K _ YN) as I0. pose proof (fconj_inv _ YN) as CI0. rewrite YR in CI0.
  assert (CI : fconj (finv y) = finv y). { apply (fmul_cancel_r _ _ y YN). rewrite I0. exact CI0. }
  assert (G : fconj (m_tau t rs M j) * (x0 + fconj u * rest M j) = x0 - y).
  { rewrite RE. unfold m_tau. destruct (feq_dec K (m_sq t M j) 0) as [Z0|_]; [contradiction|]. fold y x0. rewrite fconj_mul, fconj_sub, YR, CI.
    set (i := finv y) in *. set (cx := fconj x0) in *. set (cu := fconj u) in *.
    transitivity (i * ((y - cx) * x0) - i * (cu * (cx - y)) * (y * y - cx * x0)); [ring|]. rewrite CU.
    transitivity ((i * y) * (x0 - y)); [ring|rewrite I0; ring]. }
  rewrite VX. transitivity (M a j - m_v t rs M j a * (fconj (m_tau t rs M j) * (x0 + fconj u * rest M j))); [ring|]. rewrite G.
  destruct (Z.eqb_spec a j) as [->|Na]; [rewrite v_head; fold x0; ring|].
  rewrite v_below by (assumption || lia). fold x0 y u. transitivity (M a j * (1 - u * (x0 - y))); [ring|]. rewrite U. ring.
Qed.
Lemma sq_zero : forall M j a, (0 <= j < m)%Z -> m_sq t M j = 0 -> (j <= a < m)%Z -> M a j = 0.
Proof using rs.
  intros M j a Lj Z0 La. set (x := fun i => M (j + i)%Z j). assert (SQ : m_sq t M j = norm2 (m - j) x).
  { unfold m_sq, norm2. fold m. replace (fsum j m (fun a => fconj (M a j) * M a j)) with (fsum (0 + j) (m - j + j) (fun a => fconj (M a j) * M a j)) by (f_equal; lia).
    rewrite fsum_shift. apply fsum_ext. intros i _. unfold x. replace (i + j)%Z with (j + i)%Z by lia. reflexivity. }
  rewrite SQ in Z0. replace (M a j) with (x (a - j)%Z) by (unfold x; f_equal; lia). apply (rt_definite K rs (m - j) x Z0). lia.
Qed.

(** One step: H_j^H applied to what is left of the panel *)
Lemma step_upper : forall cols M j a q, (0 <= j < m)%Z -> (j < cols)%Z -> (0 <= a < m)%Z -> (0 <= q < cols)%Z ->
  upper_part (j + 1) (m_step t rs cols M j) a q = mmul m (adj (reflector (m_tau t rs M j) (m_v t rs M j))) (upper_part j M) a q.
Proof using.
  intros cols M j a q Lj Lc La Lq.
  rewrite (mmul_ext m _ (reflector (fconj (m_tau t rs M j)) (m_v t rs M j)) _ (upper_part j M)) by (intros; first [apply adj_reflector | reflexivity]).
  rewrite mmul_refl_l by exact La. rewrite (fsum_app 0 j m) by lia. rewrite (fsum_0 0 j) by (intros r Lr; rewrite v_above by lia; rewrite fconj_0; ring).
  destruct (Z.lt_total q j) as [Q|[->|Q]].
  - rewrite (fsum_0 j m).
    2:{ intros r Lr. unfold upper_part. destruct (Z.ltb_spec q j), (Z.ltb_spec q r); try lia. cbn [andb]. ring. }
    unfold upper_part, m_step. destruct (Z.ltb_spec q (j + 1)), (Z.ltb_spec q j), (Z.ltb_spec j q); try lia. cbn [andb].
    destruct (q <? a)%Z; [ring|]. unfold m_refl. destruct (feq_dec K (m_sq t M j) 0); [ring|]. destruct (Z.eqb_spec q j); [lia|]. ring.
  - rewrite (fsum_ext j m _ (fun r => fconj (m_v t rs M j r) * M r j)).
    2:{ intros r Lr. unfold upper_part. rewrite Z.ltb_irrefl. reflexivity. }
    unfold upper_part. rewrite Z.ltb_irrefl. cbn [andb]. destruct (Z.ltb_spec j (j + 1)); [|lia]. cbn [andb].
    unfold m_step. rewrite Z.ltb_irrefl. cbn [andb].
    destruct (feq_dec K (m_sq t M j) 0) as [Z0|N].
    + unfold m_tau, m_refl. destruct (feq_dec K (m_sq t M j) 0); [|contradiction]. rewrite fconj_0.
      destruct (Z.ltb_spec j a); [|ring]. rewrite (sq_zero M j a) by (assumption || lia). ring.
    + destruct (Z.lt_ge_cases a j) as [A|A].
      * rewrite v_above by lia. destruct (Z.ltb_spec j a); [lia|]. unfold m_refl. destruct (feq_dec K (m_sq t M j) 0); [contradiction|].
        rewrite Z.eqb_refl. destruct (Z.ltb_spec a j); [ring|lia].
      * transitivity (if (a =? j)%Z then m_y t rs M j else 0).
        -- destruct (Z.ltb_spec j a), (Z.eqb_spec a j) as [->|]; try lia; [reflexivity|]. unfold m_refl. destruct (feq_dec K (m_sq t M j) 0); [contradiction|].
           rewrite !Z.eqb_refl, Z.ltb_irrefl. reflexivity.
        -- rewrite <- (house_column M j a Lj N) by lia. ring.
  - assert (UP : forall k r, (k <= j + 1)%Z -> upper_part k M r q = M r q).
    { intros k r Lk. unfold upper_part. destruct (Z.ltb_spec q k); [lia|]. reflexivity. }
    rewrite UP by lia. rewrite (fsum_ext j m _ (fun r => fconj (m_v t rs M j r) * M r q)) by (intros r Lr; rewrite UP by lia; reflexivity).
    unfold upper_part. destruct (Z.ltb_spec q (j + 1)); [lia|]. cbn [andb]. unfold m_step.
    destruct (Z.ltb_spec j q), (Z.ltb_spec q cols); try lia. cbn [andb]. destruct (Z.leb_spec j a).
    + rewrite fsum_conj. fold m. rewrite (fsum_ext j m (fun i => fconj (fconj (M i q) * m_v t rs M j i)) (fun r => fconj (m_v t rs M j r) * M r q)); [ring|].
      intros r Lr. rewrite fconj_mul, fconj_conj. ring.
    + rewrite v_above by lia. unfold m_refl. destruct (feq_dec K (m_sq t M j) 0); [ring|]. destruct (Z.eqb_spec q j); [lia|ring].
Qed.
Lemma step_old : forall cols M j a q, (q < j)%Z -> m_step t rs cols M j a q = M a q.
Proof using.
  intros cols M j a q Q. unfold m_step. destruct (Z.ltb_spec j q); [lia|]. cbn [andb]. unfold m_refl. destruct (feq_dec K (m_sq t M j) 0); [reflexivity|].
  destruct (Z.eqb_spec q j); [lia|reflexivity].
Qed.
Lemma step_v : forall cols M j a, (0 <= a < m)%Z -> (0 <= j < m)%Z -> unit_lower (m_step t rs cols M j) a j = m_v t rs M j a.
Proof using.
  intros cols M j a La Lj. unfold unit_lower, m_v, m_step. rewrite Z.ltb_irrefl. cbn [andb].
  destruct (Z.eqb_spec a j), (Z.ltb_spec j a), (Z.ltb_spec a j); try lia; reflexivity.
Qed.

(** The loop, on matrices *)
Definition qr_inv (cols : Z) (M0 : mat K) (taus0 : Z -> F K) (j : Z) (M : mat K) (taus : Z -> F K) : Prop :=
  (forall c, (0 <= c < j)%Z -> unitary m (reflector (taus c) (fun i => unit_lower M i c))) /\
  (forall a q, (0 <= a < m)%Z -> (0 <= q < cols)%Z -> mmul m (refl_prod m (unit_lower M) taus (Z.to_nat j)) (upper_part j M) a q = M0 a q) /\
  (forall c, (c < 0 \/ j <= c)%Z -> taus c = taus0 c) /\
  (forall a q, (0 <= a < m)%Z -> (q < 0 \/ cols <= q)%Z -> M a q = M0 a q).
Lemma qr_step : forall cols M0 taus0 j M taus M1 taus1, (0 <= j < m)%Z -> (j < cols)%Z -> qr_inv cols M0 taus0 j M taus ->
  (forall a q, (0 <= a < m)%Z -> M1 a q = m_step t rs cols M j a q) -> (forall i, taus1 i = if (i =? j)%Z then m_tau t rs M j else taus i) ->
  qr_inv cols M0 taus0 (j + 1) M1 taus1.
Proof using.
  intros cols M0 taus0 j M taus M1 taus1 Lj Lc (UN & PR & TS & FR) EM ET.
  assert (VO : forall i c, (0 <= i < m)%Z -> (0 <= c < j)%Z -> unit_lower M1 i c = unit_lower M i c).
  { intros i c Li Lc'. unfold unit_lower. rewrite EM by lia. rewrite step_old by lia. reflexivity. }
  assert (VN : forall i, (0 <= i < m)%Z -> unit_lower M1 i j = m_v t rs M j i).
  { intros i Li. rewrite <- (step_v cols M j i Li Lj). unfold unit_lower. rewrite EM by lia. reflexivity. }
  assert (TO : forall c, (0 <= c < j)%Z -> taus1 c = taus c) by (intros c Lc'; rewrite ET; destruct (Z.eqb_spec c j); [lia|reflexivity]).
  assert (TN : taus1 j = m_tau t rs M j) by (rewrite ET, Z.eqb_refl; reflexivity).
  assert (UH := house_unitary M j Lj).
  assert (RN : meq m m (reflector (taus1 j) (fun i => unit_lower M1 i j)) (reflector (m_tau t rs M j) (m_v t rs M j))).
  { intros i k Li Lk. unfold reflector. rewrite TN, !VN by lia. reflexivity. }
  split; [|split; [|split]].
  - intros c Lc'. destruct (Z.eq_dec c j) as [->|Nc].
    + apply (unitary_ext m _ _ (fun i k Li Lk => eq_sym (RN i k Li Lk)) UH).
    + apply (unitary_ext m (reflector (taus c) (fun i => unit_lower M i c))); [|apply UN; lia].
      intros i k Li Lk. unfold reflector. rewrite TO, !VO by lia. reflexivity.
  - intros a q La Lq. replace (Z.to_nat (j + 1)) with (S (Z.to_nat j)) by lia. cbn [refl_prod]. rewrite Z2Nat.id by lia.
    rewrite mmul_assoc. rewrite <- (PR a q La Lq). apply mmul_ext.
    + intros r Lr. apply refl_prod_ext; try assumption; intros; [apply VO|apply TO]; lia.
    + intros r Lr. rewrite (mmul_ext m _ (reflector (m_tau t rs M j) (m_v t rs M j)) _ (mmul m (adj (reflector (m_tau t rs M j) (m_v t rs M j))) (upper_part j M))).
      * rewrite <- mmul_assoc. rewrite (mmul_ext m _ ident _ (upper_part j M)); [apply mmul_ident_l; exact Lr| |reflexivity].
        intros s Ls. apply UH; assumption.
      * intros s Ls. apply RN; assumption.
      * intros s Ls. rewrite <- (step_upper cols M j s q) by assumption. unfold upper_part. rewrite EM by lia. reflexivity.
  - intros c Lc'. rewrite ET. destruct (Z.eqb_spec c j); [lia|]. apply TS. lia.
  - intros a q La Lq. rewrite EM by lia. rewrite <- (FR a q La Lq). unfold m_step, m_refl.
    destruct (Z.ltb_spec j q), (Z.ltb_spec q cols); cbn [andb]; try lia; destruct (feq_dec K (m_sq t M j) 0); try reflexivity; destruct (Z.eqb_spec q j); try lia; reflexivity.
Qed.

Theorem panel_qr : forall nw cols nrefls ord P taus, (0 < nw)%Z -> (forall j, (0 <= j < nrefls)%Z -> Permutation (ord j) (zrange 0 nw)) ->
  (0 <= nrefls)%Z -> (nrefls <= tl_sz t 0)%Z -> (nrefls <= cols)%Z ->
  let res := panel_reflectors rs t nw cols nrefls ord P taus in
  qr_inv cols (stack t P) taus nrefls (stack t (fst res)) (snd res).
Proof using TOK NT.
  intros nw cols nrefls ord P taus W PE N0 NS NC res.
  assert (SM : (tl_sz t 0 <= m)%Z). { pose proof (off_le t TOK 1 (tl_n t)) as Q. pose proof (off_1 t). unfold m, tl_size. lia. }
  assert (H : forall j, (0 <= j)%Z -> (j <= nrefls)%Z -> forall st, st = fold_left (panel_step rs t nw cols ord) (zrange 0 j) (P, taus, false) ->
    qr_inv cols (stack t P) taus j (stack t (fst (fst st))) (snd (fst st)) /\ (snd st = true -> (cols <= j)%Z)).
  { intros j Lj. pattern j. apply natlike_ind; [| |exact Lj].
    - intros _ st ->. rewrite zrange_nil by lia. cbn [fold_left fst snd]. split; [|discriminate]. split; [intros; lia|]. split; [|split; reflexivity].
      intros a q La Lq. cbn [Z.to_nat refl_prod]. rewrite mmul_ident_l by exact La. unfold upper_part. destruct (Z.ltb_spec q 0); [lia|]. reflexivity.
    - intros k Lk IH Lk1 st Est. unfold Z.succ in *. rewrite zrange_snoc in Est by lia. rewrite fold_left_app in Est. cbn [fold_left] in Est.
      destruct (IH ltac:(lia) _ eq_refl) as [IV ST]. destruct (fold_left (panel_step rs t nw cols ord) (zrange 0 k) (P, taus, false)) as [[P1 taus1] stop].
      cbn [fst snd] in IV, ST. destruct stop; [specialize (ST eq_refl); lia|].
      pose proof (panel_step_ok t TOK NT rs nw cols ord P1 (stack t P1) taus1 k W (PE k ltac:(lia)) (fun a q _ => eq_refl) ltac:(lia)) as (S1 & S2 & S3).
      rewrite <- Est in S1, S2, S3. split; [|intros Q; specialize (S3 Q); lia].
      apply (qr_step cols (stack t P) taus k (stack t P1) taus1); try assumption; lia. }
  apply (H nrefls N0 ltac:(lia) _ eq_refl).
Qed.

(** The panel factorization as a function of the matrix: neither the number of workers nor their order matter. *)
Definition m_run (cols : Z) (k : nat) (M : mat K) (taus : Z -> F K) : mat K * (Z -> F K) :=
  fold_left (fun st j => (m_step t rs cols (fst st) j, fun i => if (i =? j)%Z then m_tau t rs (fst st) j else snd st i)) (zrange 0 (Z.of_nat k)) (M, taus).
Definition meq_rows (cols : Z) (M M' : mat K) : Prop := forall a q, (0 <= a < m)%Z -> (0 <= q < cols)%Z -> M a q = M' a q.
Lemma m_step_ext : forall cols M M' j, (0 <= j < m)%Z -> (j < cols)%Z -> meq_rows cols M M' -> meq_rows cols (m_step t rs cols M j) (m_step t rs cols M' j) /\ m_tau t rs M j = m_tau t rs M' j.
Proof using.
  intros cols M M' j Lj Lc E.
  assert (ES : m_sq t M j = m_sq t M' j) by (unfold m_sq; fold m; apply fsum_ext; intros a La; rewrite E by lia; reflexivity).
  assert (EY : m_y t rs M j = m_y t rs M' j) by (unfold m_y; rewrite ES, E by lia; reflexivity).
  assert (ET : m_tau t rs M j = m_tau t rs M' j) by (unfold m_tau; rewrite ES, EY, E by lia; reflexivity).
  assert (ER : meq_rows cols (m_refl t rs M j) (m_refl t rs M' j)).
  { intros a q La Lq. unfold m_refl. rewrite ES. destruct (feq_dec K (m_sq t M' j) 0); [apply E; assumption|]. rewrite EY, !E by lia. reflexivity. }
  assert (EV : forall a, (0 <= a < m)%Z -> m_v t rs M j a = m_v t rs M' j a) by (intros a La; unfold m_v; rewrite ER by lia; reflexivity).
  split; [|exact ET]. intros a q La Lq. unfold m_step. fold m. rewrite (ER a q La Lq), ET, (E a q La Lq), (EV a La).
  destruct (_ && _); [|reflexivity]. f_equal. f_equal. f_equal. apply fsum_ext. intros r Lr. rewrite E, EV by lia. reflexivity.
Qed.
Lemma m_run_ext : forall cols k M M' taus taus', (Z.of_nat k <= m)%Z -> (Z.of_nat k <= cols)%Z -> meq_rows cols M M' -> (forall i, taus i = taus' i) ->
  meq_rows cols (fst (m_run cols k M taus)) (fst (m_run cols k M' taus')) /\ forall i, snd (m_run cols k M taus) i = snd (m_run cols k M' taus') i.
Proof using.
  intros cols k M M' taus taus' L1 L2 EM ET. induction k as [|k IH]; [split; assumption|]. unfold m_run in *. rewrite Nat2Z.inj_succ. unfold Z.succ.
  rewrite zrange_snoc by lia. rewrite !fold_left_app. cbn [fold_left fst snd]. destruct (IH ltac:(lia) ltac:(lia)) as [I1 I2].
  destruct (m_step_ext cols _ _ (Z.of_nat k) ltac:(lia) ltac:(lia) I1) as [S1 S2]. split; [exact S1|]. intros i. destruct (i =? Z.of_nat k)%Z; [exact S2|apply I2].
Qed.
Theorem panel_value : forall nw cols k ord P taus, (0 < nw)%Z -> (forall j, (0 <= j < Z.of_nat k)%Z -> Permutation (ord j) (zrange 0 nw)) ->
  (Z.of_nat k <= tl_sz t 0)%Z -> (Z.of_nat k <= cols)%Z ->
  let res := panel_reflectors rs t nw cols (Z.of_nat k) ord P taus in
  meq_rows cols (stack t (fst res)) (fst (m_run cols k (stack t P) taus)) /\ forall i, snd res i = snd (m_run cols k (stack t P) taus) i.
Proof using TOK NT.
  intros nw cols k ord P taus W PE NS NC res.
  assert (SM : (tl_sz t 0 <= m)%Z). { pose proof (off_le t TOK 1 (tl_n t)) as Q. pose proof (off_1 t). unfold m, tl_size. lia. }
  assert (H : forall x, (x <= k)%nat -> forall st, st = fold_left (panel_step rs t nw cols ord) (zrange 0 (Z.of_nat x)) (P, taus, false) ->
    meq_rows cols (stack t (fst (fst st))) (fst (m_run cols x (stack t P) taus)) /\ (forall i, snd (fst st) i = snd (m_run cols x (stack t P) taus) i) /\ (snd st = true -> (cols <= Z.of_nat x)%Z)).
  { induction x as [|x IH]; intros Lx st Est.
    - subst st. cbn [fst snd]. split; [intros ? ? ? ?; reflexivity|]. split; [reflexivity|discriminate].
    - unfold m_run. rewrite Nat2Z.inj_succ in *. unfold Z.succ in *. rewrite zrange_snoc in * by lia. rewrite fold_left_app in *. cbn [fold_left fst snd] in *.
      fold (m_run cols x (stack t P) taus). destruct (IH ltac:(lia) _ eq_refl) as (I1 & I2 & ST). destruct (fold_left (panel_step rs t nw cols ord) (zrange 0 (Z.of_nat x)) (P, taus, false)) as [[P1 taus1] stop].
      cbn [fst snd] in I1, I2, ST. destruct stop; [specialize (ST eq_refl); lia|].
      pose proof (panel_step_ok t TOK NT rs nw cols ord P1 (stack t P1) taus1 (Z.of_nat x) W (PE (Z.of_nat x) ltac:(lia)) (fun a q _ => eq_refl) ltac:(lia)) as (S1 & S2 & S3).
      rewrite <- Est in S1, S2, S3. destruct (m_step_ext cols _ _ (Z.of_nat x) ltac:(lia) ltac:(lia) I1) as [X1 X2]. split; [|split].
      + intros a q La Lq. rewrite <- X1 by assumption. apply S1. exact La.
      + intros i. rewrite S2, X2, I2. reflexivity.
      + exact S3. }
  destruct (H k ltac:(lia) _ eq_refl) as (H1 & H2 & _). split; assumption.
Qed.
End qr.
