(** * C63: the range of eigenvalues and the argument checks of the C and ScaLAPACK-like eigensolver interfaces. *)
From Coq Require Import ZArith Lia List Bool.
From Verif Require Import CInt MemModel CEigModel.
Import ListNotations.
Local Open Scope Z_scope.

Lemma assert_ok : forall (A : Type) (b : bool) (k : res A) x, (do dlaf_assert b ;;; k) = Ok x <-> b = true /\ k = Ok x.
Proof. intros A [] k x; cbn; intuition discriminate. Qed.
Lemma assert_ub : forall (A : Type) (b : bool) (k : res A), (b = true -> k <> UB) -> (do dlaf_assert b ;;; k) <> UB.
Proof. intros A [] k H; cbn; [auto|discriminate]. Qed.

(** A ScaLAPACK array descriptor: type, context, global size, block size, source process, leading dimension *)
Definition descriptor (ty ctx gm gn mb nb rsrc csrc lld : Z) : list Z := [ty; ctx; gm; gn; mb; nb; rsrc; csrc; lld].

(** C63. il .. iu: first and last eigenvalue, counted from 1, as in ScaLAPACK. The call is accepted exactly for dense matrices of one context that start at (1, 1), equal square blocks and
    il = 1 <= iu <= m (m = 0: il = 1, iu = 0); then the eigenvalues computed are those with numbers il .. iu. Otherwise it terminates; no undefined behaviour. *)
Theorem C63_scalapack_range : forall m ia ja iz jz il iu ta ca gma gna mba nba ra sa la tz cz gmz gnz mbz nbz rz sz lz, 0 <= m <= i32_max ->
  let call := pxheevd m ia ja (descriptor ta ca gma gna mba nba ra sa la) iz jz (descriptor tz cz gmz gnz mbz nbz rz sz lz) il iu in
  let accepted := ta = 1 /\ tz = 1 /\ ca = cz /\ ia = 1 /\ ja = 1 /\ iz = 1 /\ jz = 1 /\ mba = nba /\ mbz = mba /\ nbz = nba /\ (if Z.eq_dec m 0 then il = 1 /\ iu = 0 else il = 1 /\ 1 <= iu <= m) in
  call <> UB /\
  (accepted <-> exists b e, call = Ok (b, e)) /\
  (forall b e, call = Ok (b, e) -> forall i, b <= i < e <-> il <= i + 1 <= iu).
Proof.
  intros m ia ja iz jz il iu ta ca gma gna mba nba ra sa la tz cz gmz gnz mbz nbz rz sz lz LM call accepted.
  assert (OK : forall b e, call = Ok (b, e) <-> accepted /\ b = 0 /\ e = iu).
  { intros b e. unfold call, pxheevd, descriptor. rewrite !assert_ok, !Z.eqb_eq. unfold accepted. split.
    - intros (-> & -> & -> & -> & -> & -> & -> & H1 & H2 & H3 & H). cbn [make_dlaf_descriptor bind dlaf_assert Z.eqb nth_error Pos.eqb] in H.
      unfold sub64, i64 in H. destruct (in_i64 (il - 1)); [|discriminate H]. cbn [bind] in H. unfold c_eigensolver, solver_checks in H. rewrite !assert_ok in H. cbn [ds_m ds_n ds_mb ds_nb ds_i ds_j] in H.
      rewrite ?andb_true_iff, ?Z.eqb_eq, ?Z.leb_le in H. destruct H as (_ & _ & _ & _ & _ & E1 & _ & E2 & (E3 & E4) & E5 & E6 & E7 & E8). injection E8 as <- <-.
      destruct (Z.eq_dec m 0), (Z.ltb_spec 0 m); lia.
    - intros ((-> & -> & -> & -> & -> & -> & -> & -> & -> & -> & H) & -> & ->). assert (H' : il = 1 /\ 0 <= iu <= m) by (destruct (Z.eq_dec m 0); lia). destruct H' as [-> LU].
      repeat (split; [reflexivity|]). split; [destruct (0 <? m); reflexivity|]. split; [destruct (Z.eq_dec m 0), (Z.ltb_spec 0 m); lia|]. split; [destruct (Z.eq_dec m 0), (Z.ltb_spec 0 m); lia|].
      cbn [make_dlaf_descriptor bind dlaf_assert Z.eqb nth_error Pos.eqb]. change (sub64 1 1) with (Ok 0). cbn [bind]. unfold c_eigensolver, solver_checks. rewrite !assert_ok. cbn [ds_m ds_n ds_mb ds_nb ds_i ds_j].
      rewrite ?andb_true_iff, ?Z.eqb_eq, ?Z.leb_le. repeat split; lia. }
  split; [|split].
  - unfold call, pxheevd, descriptor. repeat (apply assert_ub; intros ?). cbn [make_dlaf_descriptor nth_error]. apply Z.eqb_eq in H2, H3, H4, H5. subst ia ja iz jz. cbn [bind dlaf_assert Z.eqb Pos.eqb].
    assert (LI : 1 <= il <= i32_max) by (destruct (Z.ltb_spec 0 m); unfold i32_max in *; lia).
    assert (S : sub64 il 1 = Ok (il - 1) \/ ~ (1 <= il <= i64_max)) by (unfold sub64, i64, in_i64; destruct (Z.leb_spec i64_min (il - 1)), (Z.leb_spec (il - 1) i64_max); cbn [andb]; auto; right; unfold i64_min, i64_max in *; lia).
    destruct S as [->|S]; [|unfold i32_max, i64_max in *; lia]. cbn [bind]. unfold c_eigensolver, solver_checks. repeat (apply assert_ub; intros ?). discriminate.
  - split; [intros A; exists 0, iu; apply OK; auto|]. intros (b & e & E). apply OK in E. tauto.
  - intros b e E i. apply OK in E. destruct E as (A & -> & ->). unfold accepted in A. destruct (Z.eq_dec m 0); lia.
Qed.

(** C63. The C API counts from 0, the end is exclusive: accepted for equal square blocks, begin 0 and 0 <= end <= m; the call without range computes all the eigenvalues. *)
Theorem C63_c_range : forall m mba nba ra sa la mbz nbz rz sz lz ib ie, 0 <= m ->
  let a := Desc m m mba nba ra sa 0 0 la in let z := Desc m m mbz nbz rz sz 0 0 lz in
  (mba = nba /\ mbz = mba /\ nbz = nba /\ ib = 0 /\ 0 <= ie <= m <-> c_eigensolver a z ib ie = Ok (ib, ie)) /\ c_eigensolver a z ib ie <> UB /\
  (mba = nba /\ mbz = mba /\ nbz = nba -> c_eigensolver_full a z = Ok (0, m)).
Proof.
  intros m mba nba ra sa la mbz nbz rz sz lz ib ie LM a z.
  assert (OK : forall b e, mba = nba /\ mbz = mba /\ nbz = nba /\ b = 0 /\ 0 <= e <= m <-> c_eigensolver a z b e = Ok (b, e)).
  { intros b e. unfold c_eigensolver, solver_checks. rewrite !assert_ok. cbn [a z ds_m ds_n ds_mb ds_nb ds_i ds_j]. rewrite ?andb_true_iff, ?Z.eqb_eq, ?Z.leb_le. intuition lia. }
  split; [apply OK|]. split; [|intros H; apply OK; intuition lia]. unfold c_eigensolver, solver_checks. repeat (apply assert_ub; intros ?). discriminate.
Qed.
(** A range that does not start with the first eigenvalue, valid in ScaLAPACK, terminates the program. *)
Example C63_interior_range_refuted : pxheevd 5 1 1 (descriptor 1 7 5 5 2 2 0 0 5) 1 1 (descriptor 1 7 5 5 2 2 0 0 5) 2 3 = Abort.
Proof. reflexivity. Qed.
Example C63_case : pxheevd 5 1 1 (descriptor 1 7 5 5 2 2 0 0 5) 1 1 (descriptor 1 7 5 5 2 2 0 0 5) 1 3 = Ok (0, 3) /\ pxheevd 0 1 1 (descriptor 1 7 0 0 2 2 0 0 1) 1 1 (descriptor 1 7 0 0 2 2 0 0 1) 1 0 = Ok (0, 0).
Proof. split; reflexivity. Qed.

(** C63. The generalized problem: the same for a, b, z. *)
Theorem C63_scalapack_generalized_range : forall m ia ja ib jb iz jz il iu ta ca gma gna mba nba ra sa la tb cb gmb gnb mbb nbb rb sb lb tz cz gmz gnz mbz nbz rz sz lz, 0 <= m <= i32_max ->
  let call := pxhegvd m ia ja (descriptor ta ca gma gna mba nba ra sa la) ib jb (descriptor tb cb gmb gnb mbb nbb rb sb lb) iz jz (descriptor tz cz gmz gnz mbz nbz rz sz lz) il iu in
  let accepted := (ta = 1 /\ tb = 1 /\ tz = 1) /\ (ca = cb /\ ca = cz) /\ (ia = 1 /\ ja = 1 /\ ib = 1 /\ jb = 1 /\ iz = 1 /\ jz = 1) /\
    (mba = nba /\ mbb = mba /\ nbb = nba /\ mbz = mba /\ nbz = nba) /\ (if Z.eq_dec m 0 then il = 1 /\ iu = 0 else il = 1 /\ 1 <= iu <= m) in
  call <> UB /\
  (accepted <-> exists b e, call = Ok (b, e)) /\
  (forall b e, call = Ok (b, e) -> forall i, b <= i < e <-> il <= i + 1 <= iu).
Proof.
  intros m ia ja ib jb iz jz il iu ta ca gma gna mba nba ra sa la tb cb gmb gnb mbb nbb rb sb lb tz cz gmz gnz mbz nbz rz sz lz LM call accepted.
  assert (OK : forall b e, call = Ok (b, e) <-> accepted /\ b = 0 /\ e = iu).
  { intros b e. unfold call, pxhegvd, descriptor. rewrite !assert_ok, !Z.eqb_eq. unfold accepted. split.
    - intros (-> & -> & -> & -> & -> & -> & -> & -> & -> & -> & -> & H1 & H2 & H3 & H). cbn [make_dlaf_descriptor bind dlaf_assert Z.eqb nth_error Pos.eqb] in H.
      unfold sub64, i64 in H. destruct (in_i64 (il - 1)); [|discriminate H]. cbn [bind] in H. unfold c_gen_eigensolver, gen_solver_checks in H. rewrite !assert_ok in H. cbn [ds_m ds_n ds_mb ds_nb ds_i ds_j] in H.
      rewrite ?andb_true_iff, ?Z.eqb_eq, ?Z.leb_le in H. destruct H as (_ & _ & _ & _ & _ & _ & _ & E1 & _ & E1' & _ & (E2' & E3') & _ & _ & E2 & (E3 & E4) & E5 & E6 & E7 & E8). injection E8 as <- <-.
      destruct (Z.eq_dec m 0), (Z.ltb_spec 0 m); lia.
    - intros (((-> & -> & ->) & (<- & <-) & (-> & -> & -> & -> & -> & ->) & (-> & -> & -> & -> & ->) & H) & -> & ->).
      assert (H' : il = 1 /\ 0 <= iu <= m) by (destruct (Z.eq_dec m 0); lia). destruct H' as [-> LU].
      repeat (split; [reflexivity|]). split; [destruct (0 <? m); reflexivity|]. split; [destruct (Z.eq_dec m 0), (Z.ltb_spec 0 m); lia|]. split; [destruct (Z.eq_dec m 0), (Z.ltb_spec 0 m); lia|].
      cbn [make_dlaf_descriptor bind dlaf_assert Z.eqb nth_error Pos.eqb]. change (sub64 1 1) with (Ok 0). cbn [bind]. unfold c_gen_eigensolver, gen_solver_checks. rewrite !assert_ok. cbn [ds_m ds_n ds_mb ds_nb ds_i ds_j].
      rewrite ?andb_true_iff, ?Z.eqb_eq, ?Z.leb_le. repeat split; lia. }
  split; [|split].
  - unfold call, pxhegvd, descriptor. do 5 (apply assert_ub; intros _). do 6 (apply assert_ub; intros ?E; apply Z.eqb_eq in E; subst). do 3 (apply assert_ub; intros ?H).
    cbn [make_dlaf_descriptor nth_error]. cbn [bind dlaf_assert Z.eqb Pos.eqb].
    assert (LI : 1 <= il <= i32_max) by (destruct (Z.ltb_spec 0 m); unfold i32_max in *; lia).
    assert (S : sub64 il 1 = Ok (il - 1) \/ ~ (1 <= il <= i64_max)) by (unfold sub64, i64, in_i64; destruct (Z.leb_spec i64_min (il - 1)), (Z.leb_spec (il - 1) i64_max); cbn [andb]; auto; right; unfold i64_min, i64_max in *; lia).
    destruct S as [->|S]; [|unfold i32_max, i64_max in *; lia]. cbn [bind]. unfold c_gen_eigensolver, gen_solver_checks. repeat (apply assert_ub; intros ?). discriminate.
  - split; [intros A; exists 0, iu; apply OK; auto|]. intros (b & e & E). apply OK in E. tauto.
  - intros b e E i. apply OK in E. destruct E as (A & -> & ->). unfold accepted in A. destruct (Z.eq_dec m 0); lia.
Qed.
Example C63_generalized_case :
  let d := descriptor 1 7 5 5 2 2 0 0 5 in
  pxhegvd 5 1 1 d 1 1 d 1 1 d 1 5 = Ok (0, 5) /\ pxhegvd 5 1 1 d 1 1 (descriptor 1 7 5 5 3 3 0 0 5) 1 1 d 1 5 = Abort /\ pxhegvd 5 1 1 d 1 1 (descriptor 1 8 5 5 2 2 0 0 5) 1 1 d 1 5 = Abort.
Proof. repeat split; reflexivity. Qed.

(** ** Assumptions *)
Print Assumptions C63_scalapack_range.
Print Assumptions C63_c_range.
Print Assumptions C63_scalapack_generalized_range.
