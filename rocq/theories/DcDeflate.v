(** * What deflation does to the quadratic form sum d_j y_j^2 + rho (z . y)^2. *)
From Coq Require Import ZArith Lia List Bool Reals Lra Psatz Permutation.
From Verif Require Import CInt Loop DistModel StarField TridiagModel TridiagProofs TridiagDeflation DcSums.
Import ListNotations.
Local Open Scope R_scope.

Definition dform (n : Z) (d : Z -> R) (y : Z -> R) : R := rsum 0 n (fun j => d j * (y j * y j)).

(** ** One rotation *)
Section rotate.
Variables (n : Z) (Q : Z -> Z -> R) (g : rotation R).
Hypothesis Ri : (0 <= r_i g < n)%Z.
Hypothesis Rj : (0 <= r_j g < n)%Z.
Hypothesis Rne : r_i g <> r_j g.
Hypothesis Rcs : r_c g * r_c g + r_s g * r_s g = 1.
Definition rA (c : Z) : R := if Z.eqb c (r_i g) then r_c g else if Z.eqb c (r_j g) then r_c g else 1.
Definition rB (c : Z) : R := if Z.eqb c (r_i g) then r_s g else if Z.eqb c (r_j g) then - r_s g else 0.
Definition rS (c : Z) : Z := if Z.eqb c (r_i g) then r_j g else if Z.eqb c (r_j g) then r_i g else c.
Lemma rotate_at : forall row c, rotate Q g row c = rA c * Q row c + rB c * Q row (rS c).
Proof using.
  intros row c. unfold rotate, rA, rB, rS. destruct (Z.eqb_spec c (r_i g)) as [->|N1]; [ring|]. destruct (Z.eqb_spec c (r_j g)) as [->|N2]; ring.
Qed.
Lemma rS_range : forall c, (0 <= c < n)%Z -> (0 <= rS c < n)%Z.
Proof using Ri Rj. intros c L. unfold rS. destruct (Z.eqb c (r_i g)); [lia|]. destruct (Z.eqb c (r_j g)); lia. Qed.
Lemma rotate_orthonormal : orthonormal n Q -> orthonormal n (rotate Q g).
Proof using Ri Rj Rne Rcs.
  intros O a b La Lb. pose proof (rS_range a La) as Sa. pose proof (rS_range b Lb) as Sb.
  rewrite (rsum_ext 0 n _ (fun i => (rA a * rA b) * (Q i a * Q i b) + (rA a * rB b) * (Q i a * Q i (rS b)) + (rB a * rA b) * (Q i (rS a) * Q i b) + (rB a * rB b) * (Q i (rS a) * Q i (rS b))))
    by (intros; rewrite !rotate_at; ring).
  rewrite !rsum_add, !rsum_mul_l, !O by assumption. unfold kron, rA, rB, rS.
  destruct (Z.eqb_spec a (r_i g)) as [->|A1]; [|destruct (Z.eqb_spec a (r_j g)) as [->|A2]];
  (destruct (Z.eqb_spec b (r_i g)) as [->|B1]; [|destruct (Z.eqb_spec b (r_j g)) as [->|B2]]);
  repeat match goal with |- context [Z.eqb ?x ?y] => destruct (Z.eqb_spec x y); try (exfalso; congruence) end; try lra; nra.
Qed.
Lemma rotate_coord : forall x c, coord n (rotate Q g) x c = rA c * coord n Q x c + rB c * coord n Q x (rS c).
Proof using.
  intros x c. unfold coord. rewrite <- !rsum_mul_l, <- rsum_add. apply rsum_ext. intros i _. rewrite rotate_at. ring.
Qed.
Lemma rsum_pick2 : forall f, rsum 0 n f = f (r_i g) + f (r_j g) + rsum 0 n (fun i => if Z.eqb i (r_i g) then 0 else if Z.eqb i (r_j g) then 0 else f i).
Proof using Ri Rj Rne.
  intros f. rewrite (rsum_pick 0 n f _ Ri). rewrite (rsum_pick 0 n _ _ Rj). destruct (Z.eqb_spec (r_j g) (r_i g)); [congruence|].
  rewrite Rplus_assoc. f_equal. f_equal. apply rsum_ext. intros i _. destruct (Z.eqb i (r_i g)), (Z.eqb i (r_j g)); reflexivity.
Qed.
Lemma rotate_other : forall x c, c <> r_i g -> c <> r_j g -> coord n (rotate Q g) x c = coord n Q x c.
Proof using.
  intros x c N1 N2. rewrite rotate_coord. unfold rA, rB. destruct (Z.eqb_spec c (r_i g)); [contradiction|]. destruct (Z.eqb_spec c (r_j g)); [contradiction|]. ring.
Qed.
Lemma rotate_ci : forall x, coord n (rotate Q g) x (r_i g) = r_c g * coord n Q x (r_i g) + r_s g * coord n Q x (r_j g).
Proof using. intros x. rewrite rotate_coord. unfold rA, rB, rS. rewrite Z.eqb_refl. reflexivity. Qed.
Lemma rotate_cj : forall x, coord n (rotate Q g) x (r_j g) = r_c g * coord n Q x (r_j g) - r_s g * coord n Q x (r_i g).
Proof using Rne. intros x. rewrite rotate_coord. unfold rA, rB, rS. destruct (Z.eqb_spec (r_j g) (r_i g)); [congruence|]. rewrite Z.eqb_refl. ring. Qed.
End rotate.

Section deflation.
Variables (rho tol : R) (len : Z) (ip : Z -> Z) (d0 z0 : Z -> R) (c0 : Z -> coltype).
Hypothesis TOL : 0 <= tol.
Hypothesis LEN : (1 <= len)%Z.
Hypothesis PERM : is_perm len ip.
Hypothesis ASC : forall p q, (0 <= p <= q)%Z -> (q < len)%Z -> d0 (ip p) <= d0 (ip q).
Hypothesis TYPES : forall x, (0 <= x < len)%Z -> c0 x = UpperHalf \/ c0 x = LowerHalf.
Variable top : Z -> Prop.
Variable Q0 : Z -> Z -> R.
Hypothesis TYPED : typed len top c0 Q0.
Hypothesis ORTHO : orthonormal len Q0.

Record finv (m : Z) (d z : Z -> R) (rots : list (rotation R)) : Prop := {
  f_ortho : orthonormal len (apply_rotations rots Q0);
  f_z : forall x, dot len z (coord len (apply_rotations rots Q0) x) = dot len z0 (coord len Q0 x);
  f_zz : dot len z z = dot len z0 z0;
  f_d : forall x, Rabs (dform len d (coord len (apply_rotations rots Q0) x) - dform len d0 (coord len Q0 x)) <= IZR m * tol * dot len x x }.

Lemma finv_weaken : forall m m' d z rots, (m <= m')%Z -> finv m d z rots -> finv m' d z rots.
Proof using TOL.
  intros m m' d z rots L [A B C D]. constructor; try assumption. intros x. eapply Rle_trans; [apply D|]. apply Rmult_le_compat_r; [apply dot_pos|].
  apply Rmult_le_compat_r; [exact TOL|]. apply IZR_le. exact L.
Qed.

Lemma finv_step : forall i2 i1 d z c rots i1' d' z' c' rots', (0 <= i1 < i2)%Z -> (i2 < len)%Z ->
  dstep_R rho tol ip (i1, d, z, c, rots) i2 = (i1', d', z', c', rots') -> finv (i2 - 1) d z rots -> finv i2 d' z' rots'.
Proof using TOL LEN PERM.
  intros i2 i1 d z c rots i1' d' z' c' rots' L1 L2 E F. unfold dstep_R, deflate_step in E.
  destruct (Rleb_spec (Rabs (rho * z (ip i1))) tol) as [S1|S1]; [injection E as <- <- <- <- <-; apply (finv_weaken (i2 - 1)); [lia|exact F]|].
  destruct (Rleb_spec (Rabs (rho * z (ip i2))) tol) as [S2|S2]; [injection E as <- <- <- <- <-; apply (finv_weaken (i2 - 1)); [lia|exact F]|].
  assert (NZ1 : z (ip i1) <> 0). { intros X. apply S1. rewrite X, Rmult_0_r, Rabs_R0. exact TOL. }
  destruct (hypot_facts (z (ip i1)) (z (ip i2)) NZ1) as (RP & RR & RA & CS).
  set (r := Rhypot (z (ip i1)) (z (ip i2))) in *. set (cc := z (ip i1) / r) in *. set (ss := z (ip i2) / r) in *.
  destruct (Rleb_spec (Rabs (cc * ss * (d (ip i2) - d (ip i1)))) tol) as [S3|S3]; cbn [negb] in E; [|injection E as <- <- <- <- <-; apply (finv_weaken (i2 - 1)); [lia|exact F]].
  injection E as <- <- <- <- <-. set (p := ip i1) in *. set (q := ip i2) in *.
  assert (PQ : p <> q). { intros X. unfold p, q in X. apply (is_perm_inj len ip) in X; [lia|exact PERM|lia|lia]. }
  assert (Lp : (0 <= p < len)%Z) by (apply is_perm_in; [exact PERM|lia]). assert (Lq : (0 <= q < len)%Z) by (apply is_perm_in; [exact PERM|lia]).
  set (g := Rot p q cc ss). set (Q := apply_rotations rots Q0). destruct F as [FO FZ FZZ FD]. fold Q in FO, FZ, FD.
  assert (AR : apply_rotations (rots ++ [g]) Q0 = rotate Q g) by (unfold apply_rotations; rewrite fold_left_app; reflexivity). 
  assert (ZP : z p = cc * r) by (unfold cc; field; lra). assert (ZQ : z q = ss * r) by (unfold ss; field; lra).
  set (d1 := d p * cc * cc + d q * ss * ss). set (d2 := d p * ss * ss + d q * cc * cc).
  set (z' := upd (upd z p r) q 0). set (d' := upd (upd d p d1) q d2).
  assert (Zp : z' p = r) by (unfold z'; rewrite upd_neq by exact PQ; apply upd_eq). assert (Zq : z' q = 0) by apply upd_eq.
  assert (Dp : d' p = d1) by (unfold d'; rewrite upd_neq by exact PQ; apply upd_eq). assert (Dq : d' q = d2) by apply upd_eq.
  assert (P2 := fun f => rsum_pick2 len g Lp Lq PQ f). change (r_i g) with p in P2. change (r_j g) with q in P2.
  assert (Ycp := fun x => rotate_ci len Q g x). assert (Ycq := fun x => rotate_cj len Q g PQ x). assert (Yo := fun x c => rotate_other len Q g x c).
  change (r_i g) with p in *. change (r_j g) with q in *. change (r_c g) with cc in *. change (r_s g) with ss in *.
  assert (P3 : forall f g, (forall i, i <> p -> i <> q -> f i = g i) -> rsum 0 len f - rsum 0 len g = f p + f q - (g p + g q)).
  { intros f h H. rewrite (P2 f), (P2 h). rewrite (rsum_ext 0 len (fun i => if Z.eqb i p then 0 else if Z.eqb i q then 0 else f i) (fun i => if Z.eqb i p then 0 else if Z.eqb i q then 0 else h i)); [ring|].
    intros i _. destruct (Z.eqb_spec i p); [reflexivity|]. destruct (Z.eqb_spec i q); [reflexivity|]. apply H; assumption. }
  constructor; rewrite ?AR.
  - apply rotate_orthonormal; assumption.
  - intros x. rewrite <- FZ. apply Rminus_diag_uniq. unfold dot. rewrite P3.
    + rewrite Zp, Zq, Ycp, ZP, ZQ. ring.
    + intros i N1 N2. rewrite Yo by assumption. unfold z'. rewrite !upd_neq by assumption. reflexivity.
  - rewrite <- FZZ. apply Rminus_diag_uniq. unfold dot. rewrite P3.
    + rewrite Zp, Zq, RR. ring.
    + intros i N1 N2. unfold z'. rewrite !upd_neq by assumption. reflexivity.
  - intros x. set (y := coord len Q x) in *. set (y' := coord len (rotate Q g) x).
    assert (DD : dform len d' y' - dform len d y = - (2 * (cc * ss * (d q - d p)) * (y' p * y' q))).
    { unfold dform. rewrite P3.
      2: { intros i N1 N2. unfold y'. rewrite Yo by assumption. unfold d'. rewrite !upd_neq by assumption. reflexivity. }
      rewrite Dp, Dq.
      unfold y'. rewrite Ycp, Ycq. fold y. unfold d1, d2.
      assert (CC : cc * cc = 1 - ss * ss) by lra.
      assert (H : forall a b u v, (a * cc * cc + b * ss * ss) * ((cc * u + ss * v) * (cc * u + ss * v)) + (a * ss * ss + b * cc * cc) * ((cc * v - ss * u) * (cc * v - ss * u)) - (a * (u * u) + b * (v * v)) + 2 * (cc * ss * (b - a)) * ((cc * u + ss * v) * (cc * v - ss * u)) =
        (a * u * u + b * v * v) * ((cc * cc + ss * ss) * (cc * cc + ss * ss) - 1)).
      { intros. ring. }
      specialize (H (d p) (d q) (y p) (y q)). rewrite CS in H. lra. }
    assert (YY : y' p * y' p + y' q * y' q <= dot len x x).
    { rewrite <- (parseval len (rotate Q g) x) by (lia || (apply rotate_orthonormal; assumption)). fold y'. unfold dot. rewrite (P2 (fun i => y' i * y' i)).
      assert (0 <= rsum 0 len (fun i => if Z.eqb i p then 0 else if Z.eqb i q then 0 else y' i * y' i)).
      { apply rsum_nonneg. intros i _. destruct (Z.eqb i p); [lra|]. destruct (Z.eqb i q); [lra|nra]. }
      lra. }
    specialize (FD x). fold y in FD. replace (dform len d' y' - dform len d0 (coord len Q0 x)) with ((dform len d' y' - dform len d y) + (dform len d y - dform len d0 (coord len Q0 x))) by ring.
    eapply Rle_trans; [apply Rabs_triang|]. replace (IZR i2 * tol * dot len x x) with (tol * dot len x x + IZR (i2 - 1) * tol * dot len x x) by (rewrite minus_IZR; ring).
    apply Rplus_le_compat; [|exact FD]. rewrite DD, Rabs_Ropp, Rabs_mult, Rabs_mult.
    rewrite (Rabs_right 2) by lra. assert (A2 : 2 * Rabs (y' p * y' q) <= y' p * y' p + y' q * y' q).
    { generalize (y' p) (y' q). clear. intros u v. pose proof (Rle_0_sqr (u - v)) as H1. pose proof (Rle_0_sqr (u + v)) as H2. unfold Rsqr in *. unfold Rabs. destruct (Rcase_abs _); lra. }
    replace (2 * Rabs (cc * ss * (d q - d p)) * Rabs (y' p * y' q)) with (Rabs (cc * ss * (d q - d p)) * (2 * Rabs (y' p * y' q))) by ring.
    apply Rmult_le_compat; [apply Rabs_pos|pose proof (Rabs_pos (y' p * y' q)); lra|exact S3|lra].
Qed.

Lemma deflation_form : exists i1 d z c rots, deflate_R rho tol len ip d0 z0 c0 = (i1, d, z, c, rots) /\
  dinv rho tol len ip d0 z0 c0 top Q0 len i1 d z c rots /\ finv (len - 1) d z rots.
Proof using TOL LEN PERM ASC TYPES TYPED ORTHO.
  unfold deflate_R, apply_deflation.
  assert (X : forall m, (0 <= m)%Z -> (1 + m <= len)%Z -> exists i1 d z c rots,
     fold_left (dstep_R rho tol ip) (zrange 1 (1 + m)) (0%Z, d0, z0, c0, []) = (i1, d, z, c, rots) /\ dinv rho tol len ip d0 z0 c0 top Q0 (1 + m) i1 d z c rots /\ finv m d z rots).
  { intros m L0. pattern m. apply natlike_ind; [| |exact L0].
    - intros _. rewrite zrange_nil by lia. exists 0%Z, d0, z0, c0, []. split; [reflexivity|]. split; [apply dinv_init; assumption|].
      constructor; try reflexivity; [exact ORTHO|]. intros x. cbn [apply_rotations fold_left]. rewrite Rminus_diag_eq, Rabs_R0 by reflexivity. rewrite Rmult_0_l, Rmult_0_l. lra.
    - intros x Lx IH Ls. unfold Z.succ in *. destruct (IH ltac:(lia)) as (i1 & d & z & c & rots & E & I & FI).
      rewrite Z.add_assoc, zrange_snoc by lia. rewrite fold_left_app, E. cbn [fold_left].
      destruct (dinv_step rho tol len ip d0 z0 c0 TOL LEN PERM ASC TYPES top Q0 (1 + x) i1 d z c rots ltac:(lia) I) as (i1' & d' & z' & c' & rots' & E' & I').
      exists i1', d', z', c', rots'. split; [exact E'|]. split; [exact I'|]. destruct (v_rng _ _ _ _ _ _ _ _ _ _ _ _ _ _ _ I) as [V _].
      replace (x + 1)%Z with (1 + x)%Z by lia. apply (finv_step (1 + x) i1 d z c rots i1' d' z' c'); [lia|lia|exact E'|]. replace (1 + x - 1)%Z with x by lia. exact FI. }
  destruct (X (len - 1)%Z ltac:(lia) ltac:(lia)) as (i1 & d & z & c & rots & E & I & FI). replace (1 + (len - 1))%Z with len in E, I by lia.
  exists i1, d, z, c, rots. split; [exact E|]. split; assumption.
Qed.
End deflation.

(** ** Dropping the entries of z that are negligible *)
Lemma drop_form : forall n rho tol z (keep : Z -> bool) y, (0 <= n)%Z -> 0 <= rho -> 0 <= tol -> dot n z z <= 1 ->
  (forall j, (0 <= j < n)%Z -> keep j = false -> Rabs (rho * z j) <= tol) ->
  let zk := fun j => if keep j then z j else 0 in
  Rabs (rho * (dot n z y * dot n z y) - rho * (dot n zk y * dot n zk y)) <= 2 * IZR n * tol * dot n y y.
Proof.
  intros n rho tol z keep y Ln LR LT ZZ DR zk. set (a := dot n zk y). set (zd := fun j => if keep j then 0 else z j). set (b := dot n zd y).
  assert (AB : dot n z y = a + b). { unfold a, b, dot. rewrite <- rsum_add. apply rsum_ext. intros i _. unfold zk, zd. destruct (keep i); ring. }
  set (Y := sqrt (dot n y y)). assert (YP : 0 <= Y) by apply sqrt_pos. assert (YY : Y * Y = dot n y y) by (apply sqrt_sqrt, dot_pos).
  assert (ZK : dot n zk zk <= 1). { eapply Rle_trans; [|exact ZZ]. apply rsum_le. intros i _. unfold zk. destruct (keep i); nra. }
  assert (CSb : forall w, dot n w w <= 1 -> Rabs (dot n w y) <= Y).
  { intros w W. apply Rsqr_incr_0_var; [|exact YP]. unfold Rsqr. rewrite <- Rabs_mult, Rabs_right by nra. pose proof (cauchy n w y) as C. pose proof (dot_pos n y). rewrite YY. nra. }
  assert (HB : Rabs (rho * b) <= IZR n * tol * Y).
  { unfold b, dot. rewrite <- rsum_mul_l. eapply Rle_trans; [apply rsum_abs|]. replace (IZR n * tol * Y) with (IZR (n - 0) * (tol * Y)) by (rewrite Z.sub_0_r; ring).
    rewrite <- rsum_const by exact Ln. apply rsum_le. intros i Li. replace (rho * (zd i * y i)) with ((rho * zd i) * y i) by ring. rewrite Rabs_mult. apply Rmult_le_compat; try apply Rabs_pos.
    - unfold zd. destruct (keep i) eqn:E; [rewrite Rmult_0_r, Rabs_R0; exact LT|apply DR; assumption].
    - apply Rsqr_incr_0_var; [|exact YP]. unfold Rsqr. rewrite <- Rabs_mult, Rabs_right by nra. rewrite YY. apply dot_sq. exact Li. }
  replace (rho * (dot n z y * dot n z y) - rho * (a * a)) with ((rho * b) * (a + dot n z y)) by (rewrite AB; ring). rewrite Rabs_mult.
  replace (2 * IZR n * tol * dot n y y) with ((IZR n * tol * Y) * (2 * Y)) by (rewrite <- YY; ring). apply Rmult_le_compat; try apply Rabs_pos; [exact HB|].
  eapply Rle_trans; [apply Rabs_triang|]. pose proof (CSb zk ZK). pose proof (CSb z ZZ). fold a in H. lra.
Qed.
