(** * Deflation in exact real arithmetic. *)
From Coq Require Import ZArith Lia List Bool Permutation Reals Lra Psatz.
From Verif Require Import CInt Loop DistModel TridiagModel TridiagProofs.
Import ListNotations.
Local Open Scope Z_scope.

Definition Rleb (x y : R) : bool := if Rle_dec x y then true else false.
Definition Rltb (x y : R) : bool := if Rlt_dec x y then true else false.
Definition Rhypot (x y : R) : R := sqrt (x * x + y * y).
(** applyDeflationToArrays on real numbers *)
Definition deflate_R := apply_deflation (T := R) 0%R Rplus Rminus Rmult Rdiv Rhypot Rabs Rleb.
Definition dstep_R := deflate_step (T := R) 0%R Rplus Rminus Rmult Rdiv Rhypot Rabs Rleb.
Lemma Rleb_spec : forall x y, reflect (x <= y)%R (Rleb x y).
Proof. intros. unfold Rleb. destruct (Rle_dec x y); constructor; assumption. Qed.
Lemma Rltb_spec : forall x y, reflect (x < y)%R (Rltb x y).
Proof. intros. unfold Rltb. destruct (Rlt_dec x y); constructor; assumption. Qed.

(** the rotation of blas::rot on the columns of a matrix (row, column): rot.h:199-205 *)
Definition rotate (Q : Z -> Z -> R) (g : rotation R) : Z -> Z -> R :=
  fun row col => if col =? r_i g then (r_c g * Q row (r_i g) + r_s g * Q row (r_j g))%R
                 else if col =? r_j g then (r_c g * Q row (r_j g) - r_s g * Q row (r_i g))%R else Q row col.
(** applyGivensRotationsToMatrixColumns (local), rot.h:152-213: the rotations one after the other *)
Definition apply_rotations (rots : list (rotation R)) (Q : Z -> Z -> R) : Z -> Z -> R := fold_left rotate rots Q.

Lemma hypot_facts : forall a b, a <> 0%R -> let r := Rhypot a b in
  (0 < r)%R /\ (r * r = a * a + b * b)%R /\ (Rabs a <= r)%R /\ ((a / r) * (a / r) + (b / r) * (b / r) = 1)%R.
Proof.
  intros a b Na r. assert (P : (0 < a * a + b * b)%R) by nra. assert (S : (0 < r)%R) by (apply sqrt_lt_R0; exact P).
  assert (E : (r * r = a * a + b * b)%R) by (apply sqrt_sqrt; lra). repeat split; try assumption.
  - apply Rsqr_incr_0_var; [|lra]. unfold Rsqr. rewrite <- Rabs_mult. rewrite Rabs_right by nra. nra.
  - assert (NZ : r <> 0%R) by lra. field_simplify; [|exact NZ]. apply Rmult_eq_reg_r with (r ^ 2)%R; [field_simplify; [nra|exact NZ]|]. apply pow_nonzero. exact NZ.
Qed.

Lemma convex : forall a b cc ss, (cc * cc + ss * ss = 1)%R -> (a <= b)%R -> (a <= a * cc * cc + b * ss * ss)%R /\ (a * cc * cc + b * ss * ss <= b)%R.
Proof.
  intros a b cc ss E L. split.
  - replace a with (a * (cc * cc + ss * ss))%R at 1 by (rewrite E; ring). assert (0 <= (b - a) * (ss * ss))%R by (apply Rmult_le_pos; nra). lra.
  - replace b with (b * (cc * cc + ss * ss))%R at 2 by (rewrite E; ring). assert (0 <= (b - a) * (cc * cc))%R by (apply Rmult_le_pos; nra). lra.
Qed.

Section deflation.
Variables (rho tol : R) (len : Z) (ip : Z -> Z) (d0 z0 : Z -> R) (c0 : Z -> coltype).
Hypothesis TOL : (0 <= tol)%R.
Hypothesis LEN : 1 <= len.
Hypothesis PERM : is_perm len ip.
Hypothesis ASC : forall p q, 0 <= p <= q -> q < len -> (d0 (ip p) <= d0 (ip q))%R.
Hypothesis TYPES : forall x, 0 <= x < len -> c0 x = UpperHalf \/ c0 x = LowerHalf.
(** columns of Q: their type tells where they vanish; [top row]: the row belongs to the first subproblem *)
Variable top : Z -> Prop.
Definition typed (c : Z -> coltype) (Q : Z -> Z -> R) : Prop :=
  forall x, 0 <= x < len -> (c x = UpperHalf -> forall row, ~ top row -> Q row x = 0%R) /\ (c x = LowerHalf -> forall row, top row -> Q row x = 0%R).
Variable Q0 : Z -> Z -> R.
Hypothesis TYPED : typed c0 Q0.

Record dinv (i2 : Z) (i1 : Z) (d z : Z -> R) (c : Z -> coltype) (rots : list (rotation R)) : Prop := {
  v_rng : 0 <= i1 < i2 /\ i2 <= len;
  v_cur : c (ip i1) <> Deflated;
  v_gap : forall p, i1 < p < i2 -> c (ip p) = Deflated;
  v_rest : forall p, i2 <= p < len -> c (ip p) = c0 (ip p) /\ d (ip p) = d0 (ip p) /\ z (ip p) = z0 (ip p);
  v_next : forall p, i2 <= p < len -> (d (ip i1) <= d0 (ip p))%R;
  v_kept : forall p q, 0 <= p < q -> q <= i1 -> c (ip p) <> Deflated -> c (ip q) <> Deflated -> (d (ip p) < d (ip q))%R;
  v_z : forall p, 0 <= p < i1 -> c (ip p) <> Deflated -> (tol < Rabs (rho * z (ip p)))%R;
  v_zcur : (tol < Rabs (rho * z (ip i1)))%R \/ forall p, 0 <= p < i1 -> c (ip p) = Deflated;
  v_defl : forall p, 0 <= p < i2 -> c (ip p) = Deflated -> (Rabs (rho * z (ip p)) <= tol)%R;
  v_typed : typed c (apply_rotations rots Q0);
  v_out : forall x, ~ 0 <= x < len -> c x = c0 x /\ d x = d0 x /\ z x = z0 x;
  v_rots : forall g, In g rots -> 0 <= r_i g < len /\ 0 <= r_j g < len /\ r_i g <> r_j g /\ (r_c g * r_c g + r_s g * r_s g = 1)%R }.

Lemma ip_neq : forall p q, 0 <= p < len -> 0 <= q < len -> p <> q -> ip p <> ip q.
Proof using PERM. intros p q A B N E. apply N. apply (is_perm_inj len ip); assumption. Qed.
Lemma ip_in : forall p, 0 <= p < len -> 0 <= ip p < len.
Proof using PERM. intros. apply is_perm_in; assumption. Qed.

Lemma dinv_init : dinv 1 0 d0 z0 c0 [].
Proof using LEN PERM ASC TYPES TYPED.
  constructor; try lia; auto.
  - destruct (TYPES (ip 0) (ip_in 0 ltac:(lia))) as [E|E]; rewrite E; discriminate.
  - intros p L. apply ASC; lia.
  - right. intros. lia.
  - intros p L E. assert (p = 0) as -> by lia. destruct (TYPES (ip 0) (ip_in 0 ltac:(lia))) as [X|X]; congruence.
  - intros g [].
Qed.

Ltac ipn := apply ip_neq; lia.
Lemma dinv_step : forall i2 i1 d z c rots, i2 < len -> dinv i2 i1 d z c rots ->
  exists i1' d' z' c' rots', dstep_R rho tol ip (i1, d, z, c, rots) i2 = (i1', d', z', c', rots') /\ dinv (i2 + 1) i1' d' z' c' rots'.
Proof using TOL LEN PERM ASC TYPES.
  intros i2 i1 d z c rots L2 I. destruct I as [RNG CUR GAP REST NEXT KEPT ZZ ZCUR DEFL TY OUT ROTS].
  assert (N12 : ip i1 <> ip i2) by ipn.
  destruct (REST i2 ltac:(lia)) as (C2 & D2 & Z2). pose proof (ip_in i1 ltac:(lia)) as IN1. pose proof (ip_in i2 ltac:(lia)) as IN2.
  assert (T2 : c (ip i2) = UpperHalf \/ c (ip i2) = LowerHalf) by (rewrite C2; apply TYPES; exact IN2).
  assert (ND2 : c (ip i2) <> Deflated) by (destruct T2 as [E|E]; rewrite E; discriminate).
  unfold dstep_R, deflate_step.
  destruct (Rleb_spec (Rabs (rho * z (ip i1))) tol) as [S1|S1].
  { (* the first element is negligible *)
    exists i2, d, z, (upd c (ip i1) Deflated), rots. split; [reflexivity|]. constructor.
    - lia.
    - rewrite upd_neq by auto. exact ND2.
    - intros; lia.
    - intros p L. rewrite upd_neq by ipn. apply REST. lia.
    - intros p L. rewrite D2. apply ASC; lia.
    - intros p q L1 L3. assert (ALL : forall p, 0 <= p < i1 -> c (ip p) = Deflated) by (destruct ZCUR; [lra|assumption]).
      intros CP. exfalso. apply CP. destruct (Z.eq_dec p i1) as [->|N]; [apply upd_eq|]. rewrite upd_neq by ipn. destruct (Z.lt_ge_cases p i1); [apply ALL; lia|apply GAP; lia].
    - intros p L CP. assert (ALL : forall p, 0 <= p < i1 -> c (ip p) = Deflated) by (destruct ZCUR; [lra|assumption]).
      exfalso. apply CP. destruct (Z.eq_dec p i1) as [->|N]; [apply upd_eq|]. rewrite upd_neq by ipn. destruct (Z.lt_ge_cases p i1); [apply ALL; lia|apply GAP; lia].
    - right. assert (ALL : forall p, 0 <= p < i1 -> c (ip p) = Deflated) by (destruct ZCUR; [lra|assumption]).
      intros p L. destruct (Z.eq_dec p i1) as [->|N]; [apply upd_eq|]. rewrite upd_neq by ipn. destruct (Z.lt_ge_cases p i1); [apply ALL; lia|apply GAP; lia].
    - intros p L CP. destruct (Z.eq_dec p i1) as [->|N]; [exact S1|]. rewrite upd_neq in CP by ipn. destruct (Z.eq_dec p i2) as [->|N2]; [congruence|]. apply DEFL; [lia|exact CP].
    - intros x Lx. unfold upd. destruct (Z.eqb_spec x (ip i1)) as [->|N]; [split; discriminate|apply TY; exact Lx].
    - intros x Lx. rewrite upd_neq by (intros ->; contradiction). apply OUT. exact Lx.
    - exact ROTS. }
  destruct (Rleb_spec (Rabs (rho * z (ip i2))) tol) as [S2|S2].
  { (* the second one *)
    exists i1, d, z, (upd c (ip i2) Deflated), rots. split; [reflexivity|]. constructor.
    - lia.
    - rewrite upd_neq by auto. exact CUR.
    - intros p L. destruct (Z.eq_dec p i2) as [->|N]; [apply upd_eq|]. rewrite upd_neq by ipn. apply GAP. lia.
    - intros p L. rewrite upd_neq by ipn. apply REST. lia.
    - intros p L. apply NEXT. lia.
    - intros p q L1 L3. rewrite !upd_neq by ipn. apply KEPT; lia.
    - intros p L. rewrite upd_neq by ipn. apply ZZ. lia.
    - left. lra.
    - intros p L CP. destruct (Z.eq_dec p i2) as [->|N]; [exact S2|]. rewrite upd_neq in CP by ipn. apply DEFL; [lia|exact CP].
    - intros x Lx. unfold upd. destruct (Z.eqb_spec x (ip i2)) as [->|N]; [split; discriminate|apply TY; exact Lx].
    - intros x Lx. rewrite upd_neq by (intros ->; contradiction). apply OUT. exact Lx.
    - exact ROTS. }
  assert (NZ1 : z (ip i1) <> 0%R). { intros E. apply S1. rewrite E, Rmult_0_r, Rabs_R0. exact TOL. }
  assert (NZ2 : z (ip i2) <> 0%R). { intros E. apply S2. rewrite E, Rmult_0_r, Rabs_R0. exact TOL. }
  destruct (hypot_facts (z (ip i1)) (z (ip i2)) NZ1) as (RP & RR & RA & CS).
  set (r := Rhypot (z (ip i1)) (z (ip i2))) in *. set (cc := (z (ip i1) / r)%R) in *. set (ss := (z (ip i2) / r)%R) in *.
  assert (DLE : (d (ip i1) <= d (ip i2))%R) by (rewrite D2; apply NEXT; lia).
  destruct (Rleb_spec (Rabs (cc * ss * (d (ip i2) - d (ip i1)))) tol) as [S3|S3]; cbn [negb].
  2: { (* well separated *)
    assert (DLT : (d (ip i1) < d (ip i2))%R).
    { destruct DLE as [X|X]; [exact X|]. exfalso. apply S3. rewrite X, Rminus_diag_eq, Rmult_0_r, Rabs_R0 by reflexivity. exact TOL. }
    exists i2, d, z, c, rots. split; [reflexivity|]. constructor.
    - lia.
    - exact ND2.
    - intros; lia.
    - intros p L. apply REST. lia.
    - intros p L. rewrite D2. apply ASC; lia.
    - intros p q L1 L3 CP CQ. destruct (Z.eq_dec q i2) as [->|N2].
      + destruct (Z.lt_trichotomy p i1) as [X|[->|X]]; [|exact DLT|exfalso; apply CP; apply GAP; lia].
        apply Rlt_trans with (d (ip i1)); [apply KEPT; [lia|lia|exact CP|exact CUR]|exact DLT].
      + destruct (Z.le_gt_cases q i1) as [X|X]; [apply KEPT; auto; lia|]. exfalso. apply CQ. apply GAP. lia.
    - intros p L CP. destruct (Z.lt_trichotomy p i1) as [X|[->|X]]; [apply ZZ; [lia|exact CP]|lra|exfalso; apply CP; apply GAP; lia].
    - left. lra.
    - intros p L CP. destruct (Z.eq_dec p i2) as [->|N2]; [congruence|]. apply DEFL; [lia|exact CP].
    - exact TY.
    - exact OUT.
    - exact ROTS. }
  (* rotation *)
  set (d1 := (d (ip i1) * cc * cc + d (ip i2) * ss * ss)%R). set (tmp := (d (ip i1) * ss * ss + d (ip i2) * cc * cc)%R).
  destruct (convex _ _ cc ss CS DLE) as [D1LO D1HI]. fold d1 in D1LO, D1HI.
  set (c1 := if (coltype_eqb (c (ip i1)) UpperHalf && coltype_eqb (c (ip i2)) LowerHalf) || (coltype_eqb (c (ip i1)) LowerHalf && coltype_eqb (c (ip i2)) UpperHalf) then upd c (ip i1) Dense else c).
  assert (C1D : forall x, c1 x = Deflated <-> c x = Deflated).
  { intros x. unfold c1. destruct (_ || _); [|tauto]. unfold upd. destruct (Z.eqb_spec x (ip i1)) as [->|N]; [|tauto]. split; [discriminate|congruence]. }
  assert (C1X : forall x, x <> ip i1 -> c1 x = c x) by (intros x N; unfold c1; destruct (_ || _); [apply upd_neq; exact N|reflexivity]).
  assert (CD : forall p, 0 <= p < len -> p <> i2 -> upd c1 (ip i2) Deflated (ip p) = Deflated <-> c (ip p) = Deflated).
  { intros p Lp N. rewrite upd_neq by ipn. apply C1D. }
  assert (DX : forall p, 0 <= p < len -> p <> i1 -> p <> i2 -> upd (upd d (ip i1) d1) (ip i2) tmp (ip p) = d (ip p)).
  { intros p Lp N1 N2. rewrite !upd_neq by ipn. reflexivity. }
  assert (DI1 : upd (upd d (ip i1) d1) (ip i2) tmp (ip i1) = d1) by (rewrite upd_neq by auto; apply upd_eq).
  assert (ZX : forall p, 0 <= p < len -> p <> i1 -> p <> i2 -> upd (upd z (ip i1) r) (ip i2) 0%R (ip p) = z (ip p)).
  { intros p Lp N1 N2. rewrite !upd_neq by ipn. reflexivity. }
  assert (ZI1 : upd (upd z (ip i1) r) (ip i2) 0%R (ip i1) = r) by (rewrite upd_neq by auto; apply upd_eq).
  assert (ZR : (tol < Rabs (rho * r))%R).
  { apply Rlt_le_trans with (Rabs (rho * z (ip i1))); [lra|]. rewrite !Rabs_mult. apply Rmult_le_compat_l; [apply Rabs_pos|]. rewrite (Rabs_right r) by lra. exact RA. }
  exists i1, (upd (upd d (ip i1) d1) (ip i2) tmp), (upd (upd z (ip i1) r) (ip i2) 0%R), (upd c1 (ip i2) Deflated), (rots ++ [Rot (ip i1) (ip i2) cc ss]).
  split; [reflexivity|]. constructor.
  - lia.
  - rewrite CD by lia. exact CUR.
  - intros p L. destruct (Z.eq_dec p i2) as [->|N]; [apply upd_eq|]. apply CD; [lia|exact N|apply GAP; lia].
  - intros p L. rewrite upd_neq, C1X, DX, ZX by (lia || ipn). apply REST. lia.
  - intros p L. rewrite DI1. apply Rle_trans with (d (ip i2)); [exact D1HI|]. rewrite D2. apply ASC; lia.
  - intros p q L1 L3. rewrite !CD by lia. intros CP CQ. rewrite DX by lia. destruct (Z.eq_dec q i1) as [->|N].
    + rewrite DI1. apply Rlt_le_trans with (d (ip i1)); [apply KEPT; auto; lia|exact D1LO].
    + rewrite DX by lia. apply KEPT; auto; lia.
  - intros p L. rewrite CD by lia. intros CP. rewrite ZX by lia. apply ZZ; [lia|exact CP].
  - left. rewrite ZI1. exact ZR.
  - intros p L CP. destruct (Z.eq_dec p i2) as [->|N]; [rewrite upd_eq, Rmult_0_r, Rabs_R0; exact TOL|].
    rewrite CD in CP by lia. destruct (Z.eq_dec p i1) as [->|N1]; [contradiction|]. rewrite ZX by lia. apply DEFL; [lia|exact CP].
  - unfold apply_rotations. rewrite fold_left_app. cbn [fold_left]. fold (apply_rotations rots Q0). set (Q := apply_rotations rots Q0) in *.
    intros x Lx. destruct (Z.eq_dec x (ip i2)) as [->|N2]; [rewrite upd_eq; split; discriminate|]. rewrite upd_neq by exact N2.
    unfold rotate. cbn [r_i r_j r_c r_s]. destruct (Z.eqb_spec x (ip i1)) as [->|N1].
    + destruct (TY (ip i1) IN1) as [U1 W1]. destruct (TY (ip i2) IN2) as [U2 W2]. unfold c1.
      destruct T2 as [E2|E2]; rewrite E2; destruct (c (ip i1)) eqn:E1; cbn [coltype_eqb andb orb]; rewrite ?upd_eq, ?E1; (split; try discriminate); intros _ row TR.
      * rewrite (U1 eq_refl row TR), (U2 E2 row TR). ring.
      * rewrite (W1 eq_refl row TR), (W2 E2 row TR). ring.
    + rewrite C1X by exact N1. destruct (Z.eqb_spec x (ip i2)); [contradiction|]. apply TY. exact Lx.
  - intros x Lx. assert (x <> ip i1 /\ x <> ip i2) as [N1 N2] by (split; intros ->; contradiction). rewrite !upd_neq by assumption. rewrite C1X by exact N1. apply OUT. exact Lx.
  - intros g Ig. apply in_app_or in Ig as [Ig|[<-|[]]]; [apply ROTS; exact Ig|]. cbn. repeat split; try lia. exact CS.
Qed.

Lemma deflation_inv : exists i1 d z c rots, deflate_R rho tol len ip d0 z0 c0 = (i1, d, z, c, rots) /\ dinv len i1 d z c rots.
Proof using TOL LEN PERM ASC TYPES TYPED.
  unfold deflate_R, apply_deflation.
  assert (X : forall m, 0 <= m -> 1 + m <= len -> exists i1 d z c rots,
     fold_left (dstep_R rho tol ip) (zrange 1 (1 + m)) (0, d0, z0, c0, []) = (i1, d, z, c, rots) /\ dinv (1 + m) i1 d z c rots).
  { intros m L0. pattern m. apply natlike_ind; [| |exact L0].
    - intros _. rewrite zrange_nil by lia. exists 0, d0, z0, c0, []. split; [reflexivity|apply dinv_init].
    - intros x Lx IH Ls. unfold Z.succ in *. destruct (IH ltac:(lia)) as (i1 & d & z & c & rots & E & I).
      rewrite Z.add_assoc, zrange_snoc by lia. rewrite fold_left_app, E. cbn [fold_left].
      apply dinv_step; [lia|exact I]. }
  destruct (X (len - 1) ltac:(lia) ltac:(lia)) as (i1 & d & z & c & rots & E & I). replace (1 + (len - 1)) with len in E, I by lia.
  exists i1, d, z, c, rots. split; assumption.
Qed.
End deflation.
