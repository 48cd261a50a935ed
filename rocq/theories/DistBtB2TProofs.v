(** * Distributed back transformation band to tridiagonal: the effect of a block of reflectors *)
From Coq Require Import ZArith Lia List Bool Ring.
From Verif Require Import CInt Loop StarField DenseSpec Tiling DistModel DistSpec DistProofs DistBuilt DistThms DistCtor DenseJobs TileJobs HouseSpec HouseModel MultiJobs Red2BandModel Red2BandSpec B2TModel B2TSched B2TResult B2TAlg BtB2TModel BtB2TTile BtB2TApply BtB2TProofs BtB2TFinal
  DistMachine DistGrid PanelModel PanelProofs Properties_Panel DistLocal DistTriModel DistMat DistBtB2TModel DistBtB2TFacts DistBtB2TIdx DistBtB2TEvents DistBtB2TTile.
Import ListNotations.
Local Open Scope Z_scope.

Lemma coll_eq : forall {V} (mem : comm -> list Z) c (part : Z -> cact V) st x, member mem c (t_rank x) = true -> ca_out (part (t_rank x)) = Some x ->
  erun mem [EColl c part] st x = ca_fun (part (t_rank x)) (map (fun q => match ca_in (part q) with Some t => st t | None => st x end) (ca_needs (part (t_rank x)))) (st x).
Proof. intros V mem c part st x M O. cbn [erun fold_left eexec]. cbv zeta. rewrite M, O. destruct (tid_eqb_spec x x); [reflexivity|contradiction]. Qed.
Lemma coll_frame : forall {V} (mem : comm -> list Z) c (part : Z -> cact V) st x, (forall t, ca_out (part (t_rank x)) = Some t -> t <> x) -> erun mem [EColl c part] st x = st x.
Proof.
  intros V mem c part st x N. cbn [erun fold_left eexec]. cbv zeta. destruct (member mem c (t_rank x)); [|reflexivity]. cbn [andb]. destruct (ca_out (part (t_rank x))) as [t|]; [|reflexivity].
  destruct (tid_eqb_spec x t) as [->|]; [|reflexivity]. exfalso. exact (N t eq_refl eq_refl).
Qed.

(** ** Sequences of jobs that update the same tiles *)
Section runs.
Context {K : starfield}.
Lemma run_pair : forall (f1 f2 : Z -> mat K -> mat K -> mat K -> mat K) (v w w2 e : tid), NoDup [v; w; w2; e] -> forall l (s : tstore (mat K)),
  let s' := trun (flat_map (fun x => [TJob [v; e] w2 (in2 (f1 x)); TJob [w; w2] e (in2 (f2 x))]) l) s in
  (s' w2, s' e) = fold_left (fun (z : mat K * mat K) x => let '(z2, ze) := z in let z2' := f1 x (s v) ze z2 in (z2', f2 x (s w) z2' ze)) l (s w2, s e).
Proof.
  intros f1 f2 v w w2 e ND l. inversion ND as [|? ? N1 ND1]; subst. inversion ND1 as [|? ? N2 ND2]; subst. inversion ND2 as [|? ? N3 ND3]; subst. cbn in N1, N2, N3.
  assert (Nv : v <> w2 /\ v <> e) by (split; intros E; apply N1; auto). assert (Nw : w <> w2 /\ w <> e) by (split; intros E; apply N2; auto). assert (N2e : w2 <> e) by (intros E; apply N3; auto).
  induction l as [|x l IH]; intros s; [reflexivity|]. cbv zeta in *. cbn [flat_map app]. rewrite !trun_cons. rewrite IH. cbn [fold_left].
  set (s1 := texec s (TJob [v; e] w2 (in2 (f1 x)))). set (s2 := texec s1 (TJob [w; w2] e (in2 (f2 x)))).
  assert (A1 : s1 w2 = f1 x (s v) (s e) (s w2)) by (unfold s1, texec; apply tset_eq). assert (A2 : forall y, y <> w2 -> s1 y = s y) by (intros y Ny; unfold s1, texec; apply tset_neq; exact Ny).
  assert (B1 : s2 e = f2 x (s1 w) (s1 w2) (s1 e)) by (unfold s2, texec; apply tset_eq). assert (B2 : forall y, y <> e -> s2 y = s1 y) by (intros y Ny; unfold s2, texec; apply tset_neq; exact Ny).
  rewrite B1, !B2 by tauto. rewrite A1, !A2 by (first [tauto | congruence]). reflexivity.
Qed.
Lemma run_triple : forall (f1 f2 f3 f4 : Z -> mat K -> mat K -> mat K -> mat K) (v w w2 et eb : tid), NoDup [v; w; w2; et; eb] -> forall l (s : tstore (mat K)),
  let s' := trun (flat_map (fun x => [TJob [v; et] w2 (in2 (f1 x)); TJob [v; eb] w2 (in2 (f2 x)); TJob [w; w2] et (in2 (f3 x)); TJob [w; w2] eb (in2 (f4 x))]) l) s in
  (s' w2, s' et, s' eb) = fold_left (fun (z : mat K * mat K * mat K) x => let '(z2, zt, zb) := z in
     let za := f1 x (s v) zt z2 in let zc := f2 x (s v) zb za in (zc, f3 x (s w) zc zt, f4 x (s w) zc zb)) l (s w2, s et, s eb).
Proof.
  intros f1 f2 f3 f4 v w w2 et eb ND l. inversion ND as [|? ? N1 ND1]; subst. inversion ND1 as [|? ? N2 ND2]; subst. inversion ND2 as [|? ? N3 ND3]; subst. inversion ND3 as [|? ? N4 ND4]; subst. cbn in N1, N2, N3, N4.
  assert (Nv : v <> w2 /\ v <> et /\ v <> eb) by (repeat split; intros E; apply N1; auto). assert (Nw : w <> w2 /\ w <> et /\ w <> eb) by (repeat split; intros E; apply N2; auto).
  assert (N2e : w2 <> et /\ w2 <> eb) by (split; intros E; apply N3; auto). assert (Ne : et <> eb) by (intros E; apply N4; auto).
  induction l as [|x l IH]; intros s; [reflexivity|]. cbv zeta in *. cbn [flat_map app]. rewrite !trun_cons. rewrite IH. cbn [fold_left].
  set (s1 := texec s (TJob [v; et] w2 (in2 (f1 x)))). set (s2 := texec s1 (TJob [v; eb] w2 (in2 (f2 x)))). set (s3 := texec s2 (TJob [w; w2] et (in2 (f3 x)))). set (s4 := texec s3 (TJob [w; w2] eb (in2 (f4 x)))).
  assert (A1 : s1 w2 = f1 x (s v) (s et) (s w2)) by (unfold s1, texec; apply tset_eq). assert (A2 : forall y, y <> w2 -> s1 y = s y) by (intros y Ny; unfold s1, texec; apply tset_neq; exact Ny).
  assert (B1 : s2 w2 = f2 x (s1 v) (s1 eb) (s1 w2)) by (unfold s2, texec; apply tset_eq). assert (B2 : forall y, y <> w2 -> s2 y = s1 y) by (intros y Ny; unfold s2, texec; apply tset_neq; exact Ny).
  assert (C1 : s3 et = f3 x (s2 w) (s2 w2) (s2 et)) by (unfold s3, texec; apply tset_eq). assert (C2 : forall y, y <> et -> s3 y = s2 y) by (intros y Ny; unfold s3, texec; apply tset_neq; exact Ny).
  assert (D1 : s4 eb = f4 x (s3 w) (s3 w2) (s3 eb)) by (unfold s4, texec; apply tset_eq). assert (D2 : forall y, y <> eb -> s4 y = s3 y) by (intros y Ny; unfold s4, texec; apply tset_neq; exact Ny).
  destruct Nv as (V1 & V2 & V3), Nw as (W1 & W2 & W3), N2e as (X1 & X2).
  rewrite D1, !D2 by (first [assumption | congruence]). rewrite C1, !C2 by (first [assumption | congruence]). rewrite B1, !B2 by (first [assumption | congruence]). rewrite A1, !A2 by (first [assumption | congruence]). reflexivity.
Qed.
Lemma two_run : forall (mem : comm -> list Z) (f1 f2 f5 f6 : mat K -> mat K -> mat K -> mat K) (f3 f4 h h' : mat K -> mat K -> mat K) (ch : comm) (part : Z -> cact (mat K))
  (rt rb : Z) (vt wt et xt yt vb wb eb xb yb : tid), NoDup [vt; wt; et; xt; yt; vb; wb; eb; xb; yb] -> rt <> rb ->
  (forall x, In x [vt; wt; et; xt; yt] -> t_rank x = rt) -> (forall x, In x [vb; wb; eb; xb; yb] -> t_rank x = rb) -> member mem ch rt = true -> member mem ch rb = true ->
  part rt = CAct ch SMessage (Some xt) (Some yt) [rb] (fun vs z => h z (hd z vs)) -> part rb = CAct ch SMessage (Some xb) (Some yb) [rt] (fun vs z => h' z (hd z vs)) ->
  forall s : tstore (mat K),
  let s' := erun mem [ELoc rt (TJob [vt; et] xt (in2 f1)); ELoc rb (TJob [vb; eb] xb (in2 f2)); EColl ch part; ELoc rt (TJob [xt] yt (in1 f3)); ELoc rb (TJob [xb] yb (in1 f4));
     ELoc rt (TJob [wt; yt] et (in2 f5)); ELoc rb (TJob [wb; yb] eb (in2 f6))] s in
  let zt := f1 (s vt) (s et) (s xt) in let zb := f2 (s vb) (s eb) (s xb) in
  s' et = f5 (s wt) (f3 zt (h (s yt) zb)) (s et) /\ s' eb = f6 (s wb) (f4 zb (h' (s yb) zt)) (s eb).
Proof.
  intros mem f1 f2 f5 f6 f3 f4 h h' ch part rt rb vt wt et xt yt vb wb eb xb yb ND NR RT RB MT MB PT PB s s' zt zb.
  inversion ND as [|? ? N1 ND1]; subst. inversion ND1 as [|? ? N2 ND2]; subst. inversion ND2 as [|? ? N3 ND3]; subst. inversion ND3 as [|? ? N4 ND4]; subst. inversion ND4 as [|? ? N5 ND5]; subst.
  inversion ND5 as [|? ? N6 ND6]; subst. inversion ND6 as [|? ? N7 ND7]; subst. inversion ND7 as [|? ? N8 ND8]; subst. inversion ND8 as [|? ? N9 ND9]; subst. clear ND ND1 ND2 ND3 ND4 ND5 ND6 ND7 ND8 ND9. cbn [In] in N1, N2, N3, N4, N5, N6, N7, N8, N9.
  set (e1 := ELoc rt (TJob [vt; et] xt (in2 f1))) in *. set (e2 := ELoc rb (TJob [vb; eb] xb (in2 f2))) in *. set (e3 := EColl ch part) in *. set (e4 := ELoc rt (TJob [xt] yt (in1 f3))) in *.
  set (e5 := ELoc rb (TJob [xb] yb (in1 f4))) in *. set (e6 := ELoc rt (TJob [wt; yt] et (in2 f5))) in *. set (e7 := ELoc rb (TJob [wb; yb] eb (in2 f6))) in *.
  set (s1 := erun mem [e1] s). set (s2 := erun mem [e2] s1). set (s3 := erun mem [e3] s2). set (s4 := erun mem [e4] s3). set (s5 := erun mem [e5] s4). set (s6 := erun mem [e6] s5).
  change s' with (erun mem [e7] s6). clear s'.
  assert (A1 : s1 xt = f1 (s vt) (s et) (s xt)) by (unfold s1, e1; cbn [erun fold_left eexec]; unfold texec; apply tset_eq).
  assert (A2 : forall y, y <> xt -> s1 y = s y) by (intros y Ny; unfold s1, e1; cbn [erun fold_left eexec]; unfold texec; apply tset_neq; exact Ny).
  assert (B1 : s2 xb = f2 (s1 vb) (s1 eb) (s1 xb)) by (unfold s2, e2; cbn [erun fold_left eexec]; unfold texec; apply tset_eq).
  assert (B2 : forall y, y <> xb -> s2 y = s1 y) by (intros y Ny; unfold s2, e2; cbn [erun fold_left eexec]; unfold texec; apply tset_neq; exact Ny).
  assert (Ryt : t_rank yt = rt) by (apply RT; cbn; tauto). assert (Ryb : t_rank yb = rb) by (apply RB; cbn; tauto).
  assert (C1 : s3 yt = h (s2 yt) (s2 xb)).
  { unfold s3, e3. rewrite coll_eq by (rewrite Ryt; first [exact MT | rewrite PT; reflexivity]). rewrite Ryt, PT. cbn [ca_fun ca_needs map]. rewrite PB. reflexivity. }
  assert (C2 : s3 yb = h' (s2 yb) (s2 xt)).
  { unfold s3, e3. rewrite coll_eq by (rewrite Ryb; first [exact MB | rewrite PB; reflexivity]). rewrite Ryb, PB. cbn [ca_fun ca_needs map]. rewrite PT. reflexivity. }
  assert (C3 : forall y, t_rank y = rt \/ t_rank y = rb -> y <> yt -> y <> yb -> s3 y = s2 y).
  { intros y Ry Y1 Y2. unfold s3, e3. apply coll_frame. intros t. destruct Ry as [-> | ->]; [rewrite PT|rewrite PB]; cbn [ca_out]; intros E; congruence. }
  assert (D1 : s4 yt = f3 (s3 xt) (s3 yt)) by (unfold s4, e4; cbn [erun fold_left eexec]; unfold texec; apply tset_eq).
  assert (D2 : forall y, y <> yt -> s4 y = s3 y) by (intros y Ny; unfold s4, e4; cbn [erun fold_left eexec]; unfold texec; apply tset_neq; exact Ny).
  assert (E1 : s5 yb = f4 (s4 xb) (s4 yb)) by (unfold s5, e5; cbn [erun fold_left eexec]; unfold texec; apply tset_eq).
  assert (E2 : forall y, y <> yb -> s5 y = s4 y) by (intros y Ny; unfold s5, e5; cbn [erun fold_left eexec]; unfold texec; apply tset_neq; exact Ny).
  assert (F1 : s6 et = f5 (s5 wt) (s5 yt) (s5 et)) by (unfold s6, e6; cbn [erun fold_left eexec]; unfold texec; apply tset_eq).
  assert (F2 : forall y, y <> et -> s6 y = s5 y) by (intros y Ny; unfold s6, e6; cbn [erun fold_left eexec]; unfold texec; apply tset_neq; exact Ny).
  assert (G1 : erun mem [e7] s6 eb = f6 (s6 wb) (s6 yb) (s6 eb)) by (unfold e7; cbn [erun fold_left eexec]; unfold texec; apply tset_eq).
  assert (G2 : forall y, y <> eb -> erun mem [e7] s6 y = s6 y) by (intros y Ny; unfold e7; cbn [erun fold_left eexec]; unfold texec; apply tset_neq; exact Ny).
  assert (R1 := RT wt ltac:(cbn; tauto)). assert (R2 := RT et ltac:(cbn; tauto)). assert (R3 := RT xt ltac:(cbn; tauto)). assert (R4 := RB wb ltac:(cbn; tauto)). assert (R5 := RB eb ltac:(cbn; tauto)). assert (R6 := RB xb ltac:(cbn; tauto)).
  clear RT RB.
  Ltac nq := let E := fresh "E" in intros E; pose proof (eq_sym E); tauto.
  split.
  - rewrite G2 by nq. rewrite F1. rewrite (E2 wt), (E2 yt), (E2 et) by nq. rewrite (D2 wt), D1, (D2 et) by nq. rewrite (C3 wt), (C3 xt), C1, (C3 et) by (first [left; assumption | nq]).
    rewrite (B2 wt), (B2 xt), (B2 yt), B1, (B2 et) by nq. rewrite (A2 wt), A1, (A2 yt), (A2 vb), (A2 eb), (A2 xb), (A2 et) by nq. reflexivity.
  - rewrite G1. rewrite (F2 wb), (F2 yb), (F2 eb) by nq. rewrite (E2 wb), E1, (E2 eb) by nq. rewrite (D2 wb), (D2 xb), (D2 yb), (D2 eb) by nq. rewrite (C3 wb), (C3 xb), C2, (C3 eb) by (first [right; assumption | nq]).
    rewrite (B2 wb), B1, (B2 yb), (B2 xt), (B2 eb) by nq. rewrite (A2 wb), A1, (A2 yb), (A2 vb), (A2 eb), (A2 xb) by nq. reflexivity.
Qed.
End runs.

Lemma proj_out : forall {V} P Q (G : list (event V)) r, Forall (event_ok (members P Q) (ranks P Q)) G -> ~ In r (ranks P Q) -> proj (members P Q) r G = [].
Proof.
  intros V P Q G r OK N. induction OK as [|e G O1 O2 IH]; [reflexivity|]. cbn. fold (proj (members P Q) r G). rewrite IH, app_nil_r.
  destruct (eact (members P Q) r e) as [a|] eqn:E; [|reflexivity]. exfalso. apply N. apply (eo_rank _ _ _ O1 r a E).
Qed.

Section pr.
Context {K : starfield} (kn : kernels K) (KO : kernels_ok kn).
Variable larft : @larft_fn K.
Hypothesis LO : larft_ok larft.
Variable cplx : bool.
Variables P Q m mb b g ne nb : Z.
Variables srcH srcE : pair_Z.
Variables DH DE : coord -> Z -> axis.
Hypothesis DDH : distributed P Q (m, m) (mb, mb) (mb, mb) srcH (0, 0) DH.
Hypothesis DDE : distributed P Q (m, ne) (mb, nb) (b, nb) srcE (0, 0) DE.
Hypothesis SR : fst srcE = fst srcH.
Hypothesis Hb : 2 <= b.
Hypothesis Hg : 0 < g.
Hypothesis Hm : (if cplx then 1 else 2) < m.
Notation jl := (j_last cplx m b).
Notation co := (co Q).
Notation rks := (ranks P Q).
Notation mem := (members P Q).
(** the two matrices *)
Definition HHd (st : tstore (mat K)) : mat K := dmat P Q (mb, mb) srcH 0 st.
Definition Ed (st : tstore (mat K)) : mat K := fun x y =>
  st (bE (rk Q ((fst srcE + x / mb) mod P) ((snd srcE + y / nb) mod Q)) (x / b) (y / nb)) (x mod b) (y mod nb).
Let HP : 0 < P := proj1 DDH.
Let HQ : 0 < Q := proj1 (proj2 DDH).
Section block.
Variables kk j step : Z.
Hypothesis Hj : 0 <= j <= jl.
Hypothesis Hst : 0 <= step < t_steps m b (j * b).
Notation i := (j + step).
Notation hrow := ((fst srcH + i * b / mb) mod P).
Notation hcol := ((snd srcH + j * b / mb) mod Q).
Notation brow := ((hrow + 1) mod P).
Notation acr := (acr P m mb b srcH j step).
Notation k := (t_nrefls cplx m b j step).
Notation rows := (t_rows_v m b j step).
Notation hr0 := (Z.min b (m - i * b)).
Notation hc0 := (Z.min b (m - j * b)).
Notation g' := (if acr then b else g).
Notation ws r := (ws_index Q mb b DH r i).
Notation vT r := (bV cplx m b r kk (ws r)).
Notation tT r := (bT cplx m b r kk (ws r)).
Notation wT r := (bW cplx m b r kk (ws r)).
Notation pT r := (bPH cplx m b r kk (ws r)).
Notation w2T r je := (bW2 cplx m b r kk je).
Notation w2tT r je := (bW2t cplx m b r kk je).
Notation hht r := (hh_tile cplx Q m mb b DH r kk i j).
Notation hoi r := (hh_oi Q b DH r i j).
Notation hoj r := (hh_oj Q b DH r i j).
Notation cbc r := (c_bcast (K := K) cplx Q m mb b DH r kk i j).
Notation csd r := (c_send (K := K) cplx P Q m mb b DH r kk i j).
Notation cmp r := (d_compute kn larft cplx Q m mb b g DH DE r kk i j).
Notation sgl r := (a_single kn cplx Q m mb b g DH DE r kk i j).
Notation dbl r := (a_double kn cplx Q m mb b g DH DE r kk i j).
Notation aw2 r := (a_w2 kn cplx Q m mb b DH DE r kk i j).
Notation csm r := (c_sum (K := K) cplx P Q m b DH DE r kk i j).
Notation aad r := (a_add (K := K) cplx Q m b DE r kk i j).
Notation aae r := (a_e kn cplx Q m mb b DH DE r kk i j).
Notation G_bcast := (g_bcast (K := K) cplx P Q m mb b srcH DH kk j step).
Notation G_send := (g_send (K := K) cplx P Q m mb b srcH DH kk j step).
Notation G_comp := (g_comp kn larft cplx P Q m mb b g srcH DH DE kk j step).
Notation G_je := (g_je kn cplx P Q m mb b g srcH DH DE kk j step).
Notation G_col := (g_col kn larft cplx P Q m mb b g srcH DH DE kk j step).
Notation G_block := (g_block kn larft cplx P Q m mb b g srcH DH DE kk j step).
Lemma par : 0 <= w_par cplx m b kk < 2. Proof using. apply Z.mod_pos_bound. lia. Qed.
Lemma b_i : t_i j step = i. Proof using. reflexivity. Qed.
Let ip : 0 <= i := i_pos cplx m b j step Hj Hst.
Let il : i * b < m := i_lt cplx m b Hb Hm j step Hj Hst.
Let hri : 0 <= hrow < P := hrow_in P Q m mb b srcH DH DDH j step.
Let bri : 0 <= brow < P := brow_in P Q m mb b srcH DH DDH j step.
Let hci : 0 <= hcol < Q := hcol_in P Q m mb b srcH DH DDH j.
Notation rk_in := (rk_in P Q m mb srcH DH DDH).
Notation co_row := (co_row P Q m mb srcH DH DDH).
Notation co_col := (co_col P Q m mb srcH DH DDH).
Definition hh0 (st : tstore (mat K)) : mat K := fun p q => HHd st (i * b + p) (j * b + q).
Lemma hh0_at : forall st p q, 0 <= p < b -> 0 <= q < b -> hh0 st p q = st (bHH (rk Q hrow hcol) (i * b / mb) (j * b / mb)) (i * b mod mb + p) (j * b mod mb + q).
Proof using DDH DDE Hb Hj Hst.
  intros st p q Lp Lq. unfold hh0, HHd, dmat, drank, bHH. cbn [fst snd].
  destruct (blk_div P Q m mb b ne nb srcH srcE DH DE DDH DDE Hb i p ip Lp) as [-> ->]. destruct (blk_div P Q m mb b ne nb srcH srcE DH DE DDH DDE Hb j q ltac:(lia) Lq) as [-> ->]. reflexivity.
Qed.
(** the reflectors on rank r *)
Definition has (st s : tstore (mat K)) (r : Z) : Prop := forall p q, 0 <= p < hr0 -> 0 <= q < hc0 -> sub (hoi r) (hoj r) (s (hht r)) p q = hh0 st p q.
Lemma own_eq : forall c, 0 <= c < Q -> hh_own Q b DH (rk Q hrow c) i j = (c =? hcol).
Proof using DDH DDE Hb Hj Hst.
  intros c Lc. unfold hh_own. rewrite (x_hrow P Q m mb b srcH DH DDH Hb), (x_hcol P Q m mb b srcH DH DDH Hb) by (first [apply rk_in; assumption | lia | assumption]). rewrite co_row, co_col, Z.eqb_refl by assumption. reflexivity.
Qed.

Lemma cbc_other : forall c, 0 <= c < Q -> c <> hcol -> cbc (rk Q hrow c) = CAct (CRow hrow) (SBcast (rk Q hrow hcol)) None (Some (pT (rk Q hrow c))) [rk Q hrow hcol]
  (fun vs x => paste 0 0 hr0 hc0 x (sub (i * b mod mb) (j * b mod mb) (hd x vs))).
Proof using DDH DDE Hb Hj Hst.
  intros c Lc NC. assert (R : In (rk Q hrow c) rks) by (apply rk_in; assumption). unfold c_bcast.
  rewrite (e_hcol cplx P Q m mb b srcH DH DDH Hb j Hj), co_col by assumption. replace (c =? hcol) with false by lia.
  rewrite (e_root cplx P Q m mb b srcH DH DDH Hb j step Hj Hst) by exact R. rewrite (e_hrow cplx P Q m mb b srcH DH DDH Hb j step Hj Hst) by exact R.
  rewrite (x_hr P Q m mb b srcH DH DDH), (x_hc P Q m mb b srcH DH DDH), (x_oi P Q m mb b srcH DH DDH Hb), (x_oj P Q m mb b srcH DH DDH Hb) by (first [exact R | lia | exact ip]). reflexivity.
Qed.
Lemma cbc_root : ca_in (cbc (rk Q hrow hcol)) = Some (bHH (rk Q hrow hcol) (i * b / mb) (j * b / mb)).
Proof using DDH DDE Hb Hj Hst.
  assert (R : In (rk Q hrow hcol) rks) by (apply rk_in; assumption). unfold c_bcast.
  rewrite (e_hcol cplx P Q m mb b srcH DH DDH Hb j Hj), co_col, Z.eqb_refl by assumption. cbn [bsend ca_in].
  rewrite (x_ti P Q m mb b srcH DH DDH Hb), (x_tj P Q m mb b srcH DH DDH Hb) by (first [exact R | lia | exact ip]). reflexivity.
Qed.
Lemma hht_root : hht (rk Q hrow hcol) = bHH (rk Q hrow hcol) (i * b / mb) (j * b / mb) /\ hoi (rk Q hrow hcol) = i * b mod mb /\ hoj (rk Q hrow hcol) = j * b mod mb.
Proof using DDH DDE Hb Hj Hst.
  assert (R : In (rk Q hrow hcol) rks) by (apply rk_in; assumption). unfold hh_oi, hh_oj, hh_tile. rewrite own_eq by exact hci. rewrite Z.eqb_refl.
  rewrite (x_ti P Q m mb b srcH DH DDH Hb), (x_tj P Q m mb b srcH DH DDH Hb), (x_oi P Q m mb b srcH DH DDH Hb), (x_oj P Q m mb b srcH DH DDH Hb) by (first [exact R | lia | exact ip]). auto.
Qed.
Lemma hht_other : forall c, 0 <= c < Q -> c <> hcol -> hht (rk Q hrow c) = pT (rk Q hrow c) /\ hoi (rk Q hrow c) = 0 /\ hoj (rk Q hrow c) = 0.
Proof using DDH DDE Hb Hj Hst. intros c Lc NC. unfold hh_oi, hh_oj, hh_tile. rewrite own_eq by exact Lc. replace (c =? hcol) with false by lia. auto. Qed.
Lemma bcast_run : forall st, let s := erun mem G_bcast st in
  (forall x, t_mat x < 2 \/ 4 <= t_mat x -> s x = st x) /\ (forall c, 0 <= c < Q -> has st s (rk Q hrow c)).
Proof using DDH DDE Hb Hm Hj Hst.
  intros st s. pose proof par as PW.
  assert (FR : forall x, t_mat x < 2 \/ 4 <= t_mat x -> s x = st x).
  { intros x Lx. unfold s, g_bcast. destruct (1 <? Q); [|reflexivity]. apply coll_frame. intros t. unfold c_bcast. destruct (_ =? _); cbn [bsend ca_out]; [discriminate|].
    intros E1 E2. assert (E : bPH cplx m b (t_rank x) kk (ws (t_rank x)) = x) by congruence. apply (f_equal t_mat) in E. unfold bPH in E. cbn [t_mat] in E. lia. }
  split; [exact FR|]. intros c Lc p q Lp Lq. rewrite hh0_at by lia. destruct (Z.eq_dec c hcol) as [->|NC].
  - destruct hht_root as (-> & -> & ->). rewrite FR by (cbn; lia). reflexivity.
  - destruct (hht_other c Lc NC) as (-> & -> & ->). unfold s, g_bcast. replace (1 <? Q) with true by lia. unfold sub.
    assert (R : In (rk Q hrow c) rks) by (apply rk_in; assumption).
    assert (M : member mem (CRow hrow) (rk Q hrow c) = true) by (rewrite (memb_row P Q m mb srcH DH DDH) by exact R; rewrite co_row by assumption; apply Z.eqb_refl).
    rewrite coll_eq; cbn [t_rank bPH]; [|exact M|rewrite cbc_other by assumption; reflexivity].
    rewrite cbc_other by assumption. cbn [ca_fun ca_needs map]. rewrite cbc_root. cbn [hd]. rewrite paste_in by lia. unfold sub. f_equal; lia.
Qed.

Section col.
Variable c : Z.
Hypothesis Lc : 0 <= c < Q.
Notation rt := (rk Q hrow c).
Notation rb := (rk Q brow c).
Let Rt : In rt rks. Proof. apply rk_in; assumption. Qed.
Let Rb : In rb rks. Proof. apply rk_in; assumption. Qed.
Lemma tb_neq : acr = true -> rt <> rb.
Proof using DDH DDE Hb Hj Hst Lc. intros A E. destruct (acr_rows cplx P Q m mb b ne nb srcH srcE DH DE DDH DDE Hb j step Hj Hst A) as (N & _). apply (f_equal (co Row)) in E. rewrite !co_row in E by assumption. contradiction. Qed.
Lemma hht_rt : hoi rt = (if c =? hcol then i * b mod mb else 0) /\ hoj rt = (if c =? hcol then j * b mod mb else 0).
Proof using DDH DDE Hb Hj Hst Lc Rt. unfold hh_oi, hh_oj. rewrite own_eq by exact Lc. rewrite (x_oi P Q m mb b srcH DH DDH Hb), (x_oj P Q m mb b srcH DH DDH Hb) by (first [exact Rt | lia | exact ip]). auto. Qed.
Lemma hht_rb : acr = true -> hht rb = pT rb /\ hoi rb = 0 /\ hoj rb = 0.
Proof using DDH DDE Hb Hj Hst Lc Rb.
  intros A. destruct (acr_rows cplx P Q m mb b ne nb srcH srcE DH DE DDH DDE Hb j step Hj Hst A) as (N & _).
  unfold hh_oi, hh_oj, hh_tile, hh_own. rewrite (e_hrow cplx P Q m mb b srcH DH DDH Hb j step Hj Hst) by exact Rb. rewrite co_row by assumption. replace (brow =? hrow) with false by lia. auto.
Qed.
Lemma csd_rb : acr = true -> csd rb = CAct (CMsg rt rb) SMessage None (Some (pT rb)) [rt] (fun vs x => paste 0 0 b b x (sub (hoi rt) (hoj rt) (hd x vs))).
Proof using DDH DDE Hb Hj Hst Lc Rb Rt.
  intros A. destruct (acr_rows cplx P Q m mb b ne nb srcH srcE DH DE DDH DDE Hb j step Hj Hst A) as (N & _). destruct hht_rt as [-> ->].
  unfold c_send. rewrite (e_hrow cplx P Q m mb b srcH DH DDH Hb j step Hj Hst), (e_hcol cplx P Q m mb b srcH DH DDH Hb j Hj) by exact Rb. rewrite co_row, co_col by assumption. replace (brow =? hrow) with false by lia.
  rewrite (e_top cplx P Q m mb b srcH DH DDH Hb j step Hj Hst), (e_botr cplx P Q m mb b srcH DH DDH Hb j step Hj Hst), co_col by assumption.
  rewrite (x_oi P Q m mb b srcH DH DDH Hb), (x_oj P Q m mb b srcH DH DDH Hb) by (first [exact Rb | lia | exact ip]). reflexivity.
Qed.
Lemma csd_rt : ca_in (csd rt) = Some (hht rt).
Proof using DDH DDE Hb Hj Hst Lc Rt. unfold c_send. rewrite (e_hrow cplx P Q m mb b srcH DH DDH Hb j step Hj Hst) by exact Rt. rewrite co_row, Z.eqb_refl by assumption. reflexivity. Qed.
Lemma send_run : forall st s, has st s rt -> let s' := erun mem (G_send c) s in
  (forall x, t_mat x < 2 \/ 4 <= t_mat x -> s' x = s x) /\ has st s' rt /\ (acr = true -> has st s' rb).
Proof using DDH DDE Hb Hm Hj Hst Lc Rt Rb.
  intros st s H s'. pose proof par as PW. unfold s', g_send. destruct acr eqn:A; [|split; [reflexivity|split; [exact H|discriminate]]].
  assert (M : member mem (CMsg rt rb) rb = true) by (rewrite (memb_msg P Q) by exact Rb; rewrite Z.eqb_refl; apply orb_true_r).
  assert (FR : forall x, (t_mat x < 2 \/ 4 <= t_mat x) \/ t_rank x = rt -> erun mem [EColl (CMsg rt rb) (fun r => csd r)] s x = s x).
  { intros x Lx. apply coll_frame. intros t E1 E2. subst t. destruct Lx as [Lx|Lx].
    - unfold c_send in E1. destruct (_ =? _); cbn [ca_out] in E1; [discriminate|]. assert (E : pT (t_rank x) = x) by congruence. apply (f_equal t_mat) in E. unfold bPH in E. cbn [t_mat] in E. lia.
    - rewrite Lx in E1. unfold c_send in E1. rewrite (e_hrow cplx P Q m mb b srcH DH DDH Hb j step Hj Hst) in E1 by exact Rt. rewrite co_row, Z.eqb_refl in E1 by assumption. discriminate. }
  split; [intros x Lx; apply FR; left; exact Lx|]. split.
  - intros p q Lp Lq. rewrite FR by (right; apply hh_tile_rank). apply H; assumption.
  - intros _ p q Lp Lq. destruct (hht_rb A) as (-> & -> & ->). unfold sub at 1. rewrite coll_eq; cbn [t_rank bPH]; [|exact M|rewrite csd_rb by exact A; reflexivity].
    rewrite csd_rb by exact A. cbn [ca_fun ca_needs map]. rewrite csd_rt. cbn [hd]. rewrite paste_in by lia. rewrite !Z.sub_0_r. apply H; assumption.
Qed.

(** ** The factors *)
Definition vw (st s : tstore (mat K)) (r : Z) : Prop :=
  (forall p q, 0 <= p < rows -> 0 <= q < k -> s (vT r) p q = well_formed b (hh0 st) p q) /\
  (forall x, 0 <= x < ceil_div k g' -> meq (group_ib b rows k g' (x * g')) (group_ib b rows k g' (x * g')) (gr b rows k g' (hh0 st) (s (vT r)) (x * g'))
     (msub ident (mmul (group_jb k g' (x * g')) (sub (x * g') (x * g') (s (wT r))) (adj (gv (s (vT r)) (x * g')))))).
Let gpos : 0 < g'. Proof. destruct acr; lia. Qed.
Let kp : 0 < k <= b := k_pos cplx m b Hb Hm j step Hj Hst.
Let kr : k <= rows := k_rows cplx m b Hb Hm j step Hj Hst.
Let rkk : rows <= k - 1 + b := rows_k cplx m b Hb Hm j step Hj Hst.
Lemma n_eq : d_nrefls cplx m b i j = k. Proof using. unfold d_nrefls, d_step. f_equal. lia. Qed.
Lemma r_eq : forall r, In r rks -> d_rows Q b DE r i = rows. Proof using DDE. intros r R. rewrite (x_rows P Q m mb b ne nb srcE DE DDE) by exact R. reflexivity. Qed.
Lemma gr_eq : forall r, In r rks -> d_group Q b g DE r i = g'.
Proof using DDE Hb Hm Hj Hst SR. intros r R. unfold d_group. rewrite (e_ranks cplx P Q m mb b ne nb srcH srcE DE DDE SR Hb Hm j step Hj Hst) by exact R. reflexivity. Qed.
Lemma cmp_run : forall st s r, In r rks -> has st s r -> let s' := trun (cmp r) s in
  (forall x, t_rank x <> r \/ t_mat x < 4 \/ 10 <= t_mat x -> s' x = s x) /\ vw st s' r.
Proof using KO LO DDH DDE Hb Hg Hm Hj Hst SR.
  intros st s r R H s'. pose proof par as PW. unfold s', d_compute. rewrite n_eq, r_eq, gr_eq, (x_hr P Q m mb b srcH DH DDH) by exact R.
  assert (MH : t_mat (hht r) < 4) by (unfold hh_tile; destruct (hh_own _ _ _ _ _ _); unfold bHH, bPH; cbn [t_mat]; lia).
  set (f1 := in1 (fun hh x => setup_v b rows k hr0 (sub (hoi r) (hoj r) hh) x)). set (f2 := in2 (fun hh y x => compute_t larft b rows k g' (sub (hoi r) (hoj r) hh) y x)). set (f3 := in2 (fun y z x => compute_w kn b rows k g' y z x)).
  cbn [trun fold_left]. set (s1 := texec s _). set (s2 := texec s1 _).
  assert (Nvt : vT r <> tT r) by (intros E; apply (f_equal t_mat) in E; unfold bV, bT in E; cbn [t_mat] in E; lia).
  assert (Nvw : vT r <> wT r) by (intros E; apply (f_equal t_mat) in E; unfold bV, bW in E; cbn [t_mat] in E; lia).
  assert (Ntw : tT r <> wT r) by (intros E; apply (f_equal t_mat) in E; unfold bT, bW in E; cbn [t_mat] in E; lia).
  assert (Nh : hht r <> vT r /\ hht r <> tT r) by (split; intros E; apply (f_equal t_mat) in E; unfold bV, bT in E; cbn [t_mat] in E; lia). destruct Nh as [Nhv Nht].
  assert (A1 : s1 (vT r) = setup_v b rows k hr0 (sub (hoi r) (hoj r) (s (hht r))) (s (vT r))) by (unfold s1, texec; apply tset_eq).
  assert (A2 : forall x, x <> vT r -> s1 x = s x) by (intros x N; unfold s1, texec; apply tset_neq; exact N).
  assert (B1 : s2 (tT r) = compute_t larft b rows k g' (sub (hoi r) (hoj r) (s1 (hht r))) (s1 (vT r)) (s1 (tT r))) by (unfold s2, texec; apply tset_eq).
  assert (B2 : forall x, x <> tT r -> s2 x = s1 x) by (intros x N; unfold s2, texec; apply tset_neq; exact N).
  split.
  - intros x Lx. assert (NE : x <> vT r /\ x <> tT r /\ x <> wT r).
    { repeat split; intros ->; unfold bV, bT, bW in Lx; cbn [t_rank t_mat] in Lx; lia. }
    destruct NE as (N1 & N2 & N3). unfold texec at 1. cbn [tj_out]. rewrite tset_neq by exact N3. rewrite B2, A2 by assumption. reflexivity.
  - assert (AG : forall p q, 0 <= p < hr0 -> 0 <= q < k -> sub (hoi r) (hoj r) (s (hht r)) p q = hh0 st p q).
    { intros p q Lp Lq. apply H; [exact Lp|]. unfold t_nrefls in Lq. lia. }
    assert (HR : hr0 = b \/ rows < hr0 <= b) by (apply (hh_rows_cases m b Hb j step)).
    assert (EV : texec s2 (TJob [vT r; tT r] (wT r) f3) (vT r) = setup_v b rows k hr0 (sub (hoi r) (hoj r) (s (hht r))) (s (vT r))).
    { unfold texec. cbn [tj_out]. rewrite tset_neq by exact Nvw. rewrite B2 by exact Nvt. exact A1. }
    assert (EW : texec s2 (TJob [vT r; tT r] (wT r) f3) (wT r) = compute_w kn b rows k g' (setup_v b rows k hr0 (sub (hoi r) (hoj r) (s (hht r))) (s (vT r)))
       (compute_t larft b rows k g' (sub (hoi r) (hoj r) (s (hht r))) (setup_v b rows k hr0 (sub (hoi r) (hoj r) (s (hht r))) (s (vT r))) (s (tT r))) (s (wT r))).
    { unfold texec at 1. cbn [tj_out tj_in tj_fun]. rewrite tset_eq. unfold f3, tval. cbn [tj_in tj_out tj_fun map in2]. rewrite B1, !B2 by congruence. rewrite A1, !A2 by congruence. reflexivity. }
    split.
    + intros p q Lp Lq. rewrite EV. apply v_ok; first [lia | assumption].
    + intros x Lx. rewrite EV, EW. apply (w_ok kn KO larft LO b rows k g' hr0 ltac:(lia) ltac:(lia) gpos rkk HR (sub (hoi r) (hoj r) (s (hht r))) (hh0 st) AG). exact Lx.
Qed.

Lemma vw_ext : forall st s s' r, s' (vT r) = s (vT r) -> s' (wT r) = s (wT r) -> vw st s r -> vw st s' r.
Proof using. intros st s s' r E1 E2 [V W]. unfold vw. rewrite E1, E2. split; assumption. Qed.
Lemma comp_run : forall st s, has st s rt -> (acr = true -> has st s rb) -> let s' := erun mem (G_comp c) s in
  (forall x, t_mat x < 4 \/ 10 <= t_mat x -> s' x = s x) /\ vw st s' rt /\ (acr = true -> vw st s' rb).
Proof using KO LO DDH DDE Hb Hg Hm Hj Hst SR Lc Rt Rb.
  intros st s H1 H2 s'. pose proof par as PW. unfold s', g_comp. rewrite (erun_app P Q), (erun_map_eloc P Q).
  destruct (cmp_run st s rt Rt H1) as [F1 V1]. set (s1 := trun (cmp rt) s) in *.
  destruct (bool_dec acr true) as [A|A]; [|apply not_true_is_false in A]; rewrite A.
  - rewrite (erun_map_eloc P Q). assert (NB := tb_neq A).
    assert (H2' : has st s1 rb).
    { intros p q Lp Lq. rewrite F1 by (left; rewrite hh_tile_rank; congruence). apply H2; [exact A|exact Lp|exact Lq]. }
    pose proof (cmp_run st s1 rb Rb H2') as [F2 V2]. split; [|split; [|intros _; exact V2]].
    + intros x Lx. rewrite F2, F1 by tauto. reflexivity.
    + apply (vw_ext st s1); [apply F2; left; cbn; congruence|apply F2; left; cbn; congruence|exact V1].
  - cbn [erun fold_left]. split; [|split; [exact V1|discriminate]]. intros x Lx. apply F1. tauto.
Qed.

(** ** The application to a tile column *)
Section je.
Variable je : Z.
Notation jg := (t_gl Q DE rt Col je).
Notation cols := (Z.min nb (ne - jg * nb)).
Notation er := (if acr then rb else rt).
Notation bot := (Z.min b (m - (i + 1) * b)).
Lemma jg_rb : t_gl Q DE rb Col je = jg. Proof using DDH Lc. unfold t_gl, ax. rewrite !co_col by assumption. reflexivity. Qed.
Lemma cols_t : d_cols Q DE rt je = cols. Proof using DDE Rt. unfold d_cols, d_jg. apply (x_szc P Q m mb b ne nb srcE DE DDE). exact Rt. Qed.
Lemma cols_b : d_cols Q DE rb je = cols. Proof using DDH DDE Lc Rb. unfold d_cols, d_jg. rewrite jg_rb. apply (x_szc P Q m mb b ne nb srcE DE DDE). exact Rb. Qed.
Lemma ie_eq : forall r, In r rks -> d_ie Q b DE r i = i. Proof using DDE Hb Hj Hst. intros r R. apply (x_ie P Q m mb b ne nb srcE DE DDE Hb); [exact R|exact ip]. Qed.
Lemma sz_eq : forall r t, In r rks -> szt Q DE r Row t = Z.min b (m - t * b). Proof using DDE. intros r t R. apply (x_sz P Q m mb b ne nb srcE DE DDE). exact R. Qed.
Lemma top_t : is_top Q b DH rt i = true.
Proof using DDH DDE Hb Hj Hst Lc Rt. unfold is_top. rewrite (e_hrow cplx P Q m mb b srcH DH DDH Hb j step Hj Hst) by exact Rt. rewrite co_row by assumption. apply Z.eqb_refl. Qed.
Lemma top_b : acr = true -> is_top Q b DH rb i = false.
Proof using DDH DDE Hb Hj Hst Lc Rb.
  intros A. destruct (acr_rows cplx P Q m mb b ne nb srcH srcE DH DE DDH DDE Hb j step Hj Hst A) as (N & _).
  unfold is_top. rewrite (e_hrow cplx P Q m mb b srcH DH DDH Hb j step Hj Hst) by exact Rb. rewrite co_row by assumption. lia.
Qed.
Lemma aw2_t : acr = true -> aw2 rt je = TJob [vT rt; bE rt i jg] (w2tT rt je) (in2 (fun y e z => paste 0 0 k cols z (gemm kn ConjTrans NoTrans k cols (b - 1) f1 (sub 0 0 y) (sub 1 0 e) f0 z))).
Proof using DDH DDE Hb Hm Hj Hst Lc Rt.
  intros A. destruct (acr_rows cplx P Q m mb b ne nb srcH srcE DH DE DDH DDE Hb j step Hj Hst A) as (_ & MB & _).
  unfold a_w2, d_e, e_o, s_o, s_n, d_top. rewrite top_t, cols_t, n_eq, ie_eq, r_eq by exact Rt. unfold d_jg. replace (Z.min rows (b - 1)) with (b - 1) by (unfold t_rows_v; rewrite b_i; lia). reflexivity.
Qed.
Lemma aw2_b : acr = true -> aw2 rb je = TJob [vT rb; bE rb (i + 1) jg] (w2tT rb je) (in2 (fun y e z => paste 0 0 k cols z (gemm kn ConjTrans NoTrans k cols bot f1 (sub (b - 1) 0 y) (sub 0 0 e) f0 z))).
Proof using DDH DDE Hb Hm Hj Hst Lc Rb.
  intros A. destruct (acr_rows cplx P Q m mb b ne nb srcH srcE DH DE DDH DDE Hb j step Hj Hst A) as (_ & MB & _).
  unfold a_w2, d_e, e_o, s_o, s_n, d_top. rewrite (top_b A), cols_b, n_eq, ie_eq, r_eq by exact Rb. unfold d_jg. rewrite jg_rb. replace (Z.min rows (b - 1)) with (b - 1) by (unfold t_rows_v; rewrite b_i; lia).
  replace (rows - (b - 1)) with bot by (unfold t_rows_v; rewrite b_i; lia). reflexivity.
Qed.
Lemma aae_t : acr = true -> aae rt je = TJob [wT rt; w2T rt je] (bE rt i jg) (in2 (fun y z e => paste 1 0 (b - 1) cols e (gemm kn NoTrans NoTrans (b - 1) cols k (fopp f1) (sub 0 0 y) z f1 (sub 1 0 e)))).
Proof using DDH DDE Hb Hm Hj Hst Lc Rt.
  intros A. destruct (acr_rows cplx P Q m mb b ne nb srcH srcE DH DE DDH DDE Hb j step Hj Hst A) as (_ & MB & _).
  unfold a_e, d_e, e_o, e_n, s_o, d_top, e_o. rewrite top_t, cols_t, n_eq, ie_eq, sz_eq by exact Rt. unfold d_jg. replace (Z.min b (m - i * b) - 1) with (b - 1) by lia. reflexivity.
Qed.
Lemma aae_b : acr = true -> aae rb je = TJob [wT rb; w2T rb je] (bE rb (i + 1) jg) (in2 (fun y z e => paste 0 0 bot cols e (gemm kn NoTrans NoTrans bot cols k (fopp f1) (sub (b - 1) 0 y) z f1 (sub 0 0 e)))).
Proof using DDH DDE Hb Hm Hj Hst Lc Rb.
  intros A. destruct (acr_rows cplx P Q m mb b ne nb srcH srcE DH DE DDH DDE Hb j step Hj Hst A) as (_ & MB & _).
  unfold a_e, d_e, e_o, e_n, s_o, d_top, e_o. rewrite (top_b A), cols_b, n_eq, ie_eq, r_eq, sz_eq by exact Rb. unfold d_jg. rewrite jg_rb. replace (Z.min rows (b - 1)) with (b - 1) by (unfold t_rows_v; rewrite b_i; lia). rewrite Z.sub_0_r. reflexivity.
Qed.
Lemma aad_t : aad rt je = TJob [w2tT rt je] (w2T rt je) (in1 (fun y z => paste 0 0 k cols z (fun p q => fadd (z p q) (fmul f1 (y p q))))).
Proof using DDE Rt. unfold a_add. rewrite cols_t, n_eq. reflexivity. Qed.
Lemma aad_b : aad rb je = TJob [w2tT rb je] (w2T rb je) (in1 (fun y z => paste 0 0 k cols z (fun p q => fadd (z p q) (fmul f1 (y p q))))).
Proof using DDH DDE Lc Rb. unfold a_add. rewrite cols_b, n_eq. reflexivity. Qed.
Notation ch := (CP2P rt rb (g_tag P Q mb b srcH DE j step c je)).
Lemma csm_t : csm rt je = CAct ch SMessage (Some (w2tT rt je)) (Some (w2T rt je)) [rb] (fun vs z => paste 0 0 k cols z (hd z vs)).
Proof using DDH DDE Hb Hj Hst Lc Rt.
  unfold c_sum, d_chan, d_mate, g_tag. rewrite top_t, cols_t, n_eq. rewrite (e_top cplx P Q m mb b srcH DH DDH Hb j step Hj Hst), (e_botr cplx P Q m mb b srcH DH DDH Hb j step Hj Hst), co_col by assumption. reflexivity.
Qed.
Lemma csm_b : acr = true -> csm rb je = CAct ch SMessage (Some (w2tT rb je)) (Some (w2T rb je)) [rt] (fun vs z => paste 0 0 k cols z (hd z vs)).
Proof using DDH DDE Hb Hj Hst Lc Rb.
  intros A. unfold c_sum, d_chan, d_mate, g_tag. rewrite (top_b A), cols_b, n_eq. rewrite (e_top cplx P Q m mb b srcH DH DDH Hb j step Hj Hst), (e_botr cplx P Q m mb b srcH DH DDH Hb j step Hj Hst), co_col by assumption.
  unfold d_tag, lnt, ax. rewrite !co_col by assumption. reflexivity.
Qed.

Lemma mats : forall r r', NoDup [vT r; wT r; w2T r je; bE r' i jg; bE r' (i + 1) jg].
Proof using Hj Hst Hm Hb DDH DDE Hg.
  intros r r'. pose proof par as PW. repeat constructor; cbn [In]; intros I0; repeat (destruct I0 as [I0|I0]); try contradiction;
  assert (IM := f_equal t_mat I0); assert (IR := f_equal t_row I0); unfold bV, bW, bW2, bE in IM, IR; cbn [t_mat t_row] in IM, IR; lia.
Qed.
Lemma nd4 : forall r, NoDup [vT r; wT r; w2T r je; bE r i jg].
Proof using Hj Hst Hm Hb DDH DDE Hg.
  intros r. pose proof par as PW. repeat constructor; cbn [In]; intros I0; repeat (destruct I0 as [I0|I0]); try contradiction;
  assert (IM := f_equal t_mat I0); unfold bV, bW, bW2, bE in IM; cbn [t_mat] in IM; lia.
Qed.
Lemma nd10 : rt <> rb -> NoDup [vT rt; wT rt; bE rt i jg; w2tT rt je; w2T rt je; vT rb; wT rb; bE rb (i + 1) jg; w2tT rb je; w2T rb je].
Proof using Hj Hst Hm Hb DDH DDE Hg.
  intros NB. pose proof par as PW. repeat constructor; cbn [In]; intros I0; repeat (destruct I0 as [I0|I0]); try contradiction;
  assert (IM := f_equal t_mat I0); assert (IR := f_equal t_rank I0); unfold bV, bW, bW2, bW2t, bE in IM, IR; cbn [t_mat t_rank] in IM, IR; first [congruence | lia].
Qed.
Lemma je_tiles : forall st s, vw st s rt -> (acr = true -> vw st s rb) -> let s' := erun mem (G_je c je) s in
  forall p q, 0 <= p < 1 + rows -> 0 <= q < cols ->
  stack2 b (s' (bE rt i jg)) (s' (bE er (i + 1) jg)) p q =
  apply_spec b rows k g' (hh0 st) (s (vT rt)) (rev (group_cols k g')) (stack2 b (s (bE rt i jg)) (s (bE er (i + 1) jg))) p q.
Proof using KO LO DDH DDE Hb Hg Hm Hj Hst SR Lc Rt Rb gpos kp kr rkk.
  intros st s V1 V2 s' p q Lp Lq. assert (ROWS : rows = Z.min (2 * b) (m - i * b) - 1) by reflexivity.
  unfold s', g_je. destruct (Z.ltb_spec ((i + 1) * b) m) as [LT|GE]; cbn [negb].
  2:{ (* one tile *)
    assert (A : acr = false) by (unfold DistBtB2TEvents.acr; replace ((i + 1) * b <? m) with false by lia; reflexivity).
    assert (RB : rows < b) by lia. rewrite (erun_map_eloc P Q). unfold stack2 at 1. replace (p <? b) with true by lia.
    pose proof (run_pair (fun x y e z => paste 0 0 (group_jb k g' x) cols z (gemm kn ConjTrans NoTrans (group_jb k g' x) cols (rows - x) f1 (sub x x y) (sub (x + 1) 0 e) f0 z))
      (fun x y z e => paste (x + 1) 0 (rows - x) cols e (gemm kn NoTrans NoTrans (rows - x) cols (group_jb k g' x) (fopp f1) (sub x x y) z f1 (sub (x + 1) 0 e)))
      (vT rt) (wT rt) (w2T rt je) (bE rt i jg) (nd4 rt) (rev (group_cols k g')) s) as RP. cbv zeta in RP.
    assert (ES : trun (sgl rt je) s (bE rt i jg) = snd (apply_single kn rows k g' cols (s (vT rt)) (s (wT rt)) (s (w2T rt je)) (s (bE rt i jg)))).
    { unfold a_single. rewrite cols_t, n_eq, ie_eq, r_eq, gr_eq by exact Rt. unfold d_jg. apply (f_equal snd) in RP. cbn [snd] in RP. etransitivity; [exact RP|]. reflexivity. }
    rewrite ES. destruct V1 as [HV HW]. rewrite (single_spec kn KO larft LO b rows k g' ltac:(lia) ltac:(lia) gpos (hh0 st) (s (vT rt)) HV (s (wT rt)) HW cols _ _ RB p q Lq).
    set (lst := (fun x p q => HHd st (t_row x * b + p) (t_col x * b + q)) : tstore (mat K)).
    apply (spec_ext cplx m b g' Hb gpos Hm j step Hj Hst lst (s (vT rt)) (rev (group_cols k g'))).
    - intros y. apply group_in.
    - intros p' Lp'. unfold stack2. replace (p' <? b) with true by lia. reflexivity.
    - exact Lp. }
  destruct (bool_dec acr true) as [A|A]; [|apply not_true_is_false in A].
  - (* two ranks *)
    rewrite A. cbn [negb]. assert (NB := tb_neq A). specialize (V2 A).
    set (F1 := fun y e z : mat K => paste 0 0 k cols z (gemm kn ConjTrans NoTrans k cols (b - 1) f1 (sub 0 0 y) (sub 1 0 e) f0 z)).
    set (F2 := fun y e z : mat K => paste 0 0 k cols z (gemm kn ConjTrans NoTrans k cols bot f1 (sub (b - 1) 0 y) (sub 0 0 e) f0 z)).
    set (F5 := fun y z e : mat K => paste 1 0 (b - 1) cols e (gemm kn NoTrans NoTrans (b - 1) cols k (fopp f1) (sub 0 0 y) z f1 (sub 1 0 e))).
    set (F6 := fun y z e : mat K => paste 0 0 bot cols e (gemm kn NoTrans NoTrans bot cols k (fopp f1) (sub (b - 1) 0 y) z f1 (sub 0 0 e))).
    set (F3 := fun y z : mat K => paste 0 0 k cols z (fun p q => fadd (z p q) (fmul f1 (y p q)))). set (HH := fun z y : mat K => paste 0 0 k cols z y).
    pose proof (two_run mem F1 F2 F5 F6 F3 F3 HH HH ch (fun r => csm r je) rt rb _ _ _ _ _ _ _ _ _ _ (nd10 NB) NB) as T2.
    specialize (T2 ltac:(intros x I0; cbn [In] in I0; repeat (destruct I0 as [<-|I0]; [reflexivity|]); destruct I0) ltac:(intros x I0; cbn [In] in I0; repeat (destruct I0 as [<-|I0]; [reflexivity|]); destruct I0)).
    specialize (T2 ltac:(rewrite (memb_p2p P Q) by exact Rt; rewrite Z.eqb_refl; reflexivity) ltac:(rewrite (memb_p2p P Q) by exact Rb; rewrite Z.eqb_refl; apply orb_true_r)).
    specialize (T2 csm_t (csm_b A) s). cbv zeta in T2. rewrite (aw2_t A), (aw2_b A), aad_t, aad_b, (aae_t A), (aae_b A). fold F1 F2 F3 F5 F6.
    set (sf := erun mem _ s) in *. destruct T2 as [T1 T2]. rewrite T1, T2. clear T1 T2.
    destruct V1 as [HV HW], V2 as [HV2 HW2]. rewrite A in HW, HW2. unfold F5, F6.
    apply (two_spec kn KO b rows k bot cols Hb kp kr rkk ltac:(lia) ltac:(lia) (hh0 st) (s (vT rt)) (s (vT rb)) (s (wT rt)) (s (wT rb)) HV HV2 HW HW2
      (s (bE rt i jg)) (s (bE rb (i + 1) jg)) (F1 (s (vT rt)) (s (bE rt i jg)) (s (w2tT rt je))) (F2 (s (vT rb)) (s (bE rb (i + 1) jg)) (s (w2tT rb je)))
      _ _ (s (w2tT rt je)) (s (w2tT rb je))); [..|lia|exact Lq].
    + intros r' q' Lr' Lq'. unfold F1. rewrite paste_in by lia. rewrite !Z.sub_0_r. reflexivity.
    + intros r' q' Lr' Lq'. unfold F2. rewrite paste_in by lia. rewrite !Z.sub_0_r. reflexivity.
    + intros r' q' Lr' Lq'. unfold F3 at 1. rewrite paste_in by lia. cbv beta. unfold HH at 1. rewrite paste_in by lia. rewrite !Z.sub_0_r. reflexivity.
    + intros r' q' Lr' Lq'. unfold F3 at 1. rewrite paste_in by lia. cbv beta. unfold HH at 1. rewrite paste_in by lia. rewrite !Z.sub_0_r. reflexivity.
  - (* two tiles of a rank *)
    rewrite A. cbn [negb]. rewrite (erun_map_eloc P Q). destruct V1 as [HV HW]. rewrite A in HW.
    pose proof (run_triple (fun x y e z => paste 0 0 (group_jb k g x) cols z (gemm kn ConjTrans NoTrans (group_jb k g x) cols (b - (x + 1)) f1 (sub x x y) (sub (x + 1) 0 e) f0 z))
      (fun x y e z => paste 0 0 (group_jb k g x) cols z (gemm kn ConjTrans NoTrans (group_jb k g x) cols (Z.min bot (x + group_jb k g x)) f1 (sub (b - 1) x y) e f1 z))
      (fun x y z e => paste (x + 1) 0 (b - (x + 1)) cols e (gemm kn NoTrans NoTrans (b - (x + 1)) cols (group_jb k g x) (fopp f1) (sub x x y) z f1 (sub (x + 1) 0 e)))
      (fun x y z e => paste 0 0 (Z.min bot (x + group_jb k g x)) cols e (gemm kn NoTrans NoTrans (Z.min bot (x + group_jb k g x)) cols (group_jb k g x) (fopp f1) (sub (b - 1) x y) z f1 e))
      (vT rt) (wT rt) (w2T rt je) (bE rt i jg) (bE rt (i + 1) jg) (mats rt rt) (rev (group_cols k g)) s) as RP. cbv zeta in RP.
    assert (ES : (trun (dbl rt je) s (w2T rt je), trun (dbl rt je) s (bE rt i jg), trun (dbl rt je) s (bE rt (i + 1) jg)) = apply_double kn b bot k g cols (s (vT rt)) (s (wT rt)) (s (w2T rt je)) (s (bE rt i jg)) (s (bE rt (i + 1) jg))).
    { unfold a_double. cbv zeta. rewrite cols_t, n_eq, ie_eq, gr_eq, !sz_eq by exact Rt. rewrite A. replace (Z.min b (m - i * b)) with b by lia. unfold d_jg. etransitivity; [exact RP|]. reflexivity. }
    set (s2 := trun (dbl rt je) s) in *.
    pose proof (double_spec kn KO larft LO b rows k g ltac:(lia) ltac:(lia) Hg (hh0 st) (s (vT rt)) HV (s (wT rt)) HW bot cols (s (w2T rt je)) (s (bE rt i jg)) (s (bE rt (i + 1) jg)) ltac:(lia) ltac:(lia) ltac:(lia) p q ltac:(lia) Lq) as DS. cbv zeta in DS.
    rewrite <- ES in DS. cbn [fst snd] in DS. exact DS.
Qed.

Lemma je_frame : forall s x, t_mat x < 10 -> t_mat x <> 1 \/ t_col x <> jg \/ (t_row x <> i /\ t_row x <> i + 1) -> erun mem (G_je c je) s x = s x.
Proof using DDH DDE Hb Hm Hj Hst SR Lc Hg.
  intros s x MX O. pose proof par as PW. assert (OK := je_ok kn cplx P Q m mb b g ne nb srcH srcE DH DE DDH DDE Hb Hm kk j step Hj Hst c je Lc).
  destruct (in_dec Z.eq_dec (t_rank x) rks) as [R|N]; [|apply erun_frame_nil; [exact OK|apply proj_out; assumption]].
  apply erun_frame; [exact OK|]. rewrite (pj_je kn cplx P Q m mb b g ne nb srcH srcE DH DE DDH DDE SR Hb Hm kk j step Hj Hst (t_rank x) R c je Lc). destruct (_ && _) eqn:C; [|intros a []].
  assert (CC : co Col (t_rank x) = c) by lia. assert (JG : d_jg Q DE (t_rank x) je = jg) by (unfold d_jg, t_gl, ax; rewrite CC, co_col by assumption; reflexivity).
  assert (NE : forall z, z = i \/ z = i + 1 -> bE (t_rank x) z (d_jg Q DE (t_rank x) je) <> x).
  { intros z Lz E. rewrite JG in E. apply (f_equal t_mat) in E as E1. apply (f_equal t_row) in E as E2. apply (f_equal t_col) in E as E3. unfold bE in E1, E2, E3. cbn [t_mat t_row t_col] in E1, E2, E3. lia. }
  assert (NW : w2T (t_rank x) je <> x /\ w2tT (t_rank x) je <> x) by (split; intros E; apply (f_equal t_mat) in E; unfold bW2, bW2t in E; cbn [t_mat] in E; lia). destruct NW as [NW1 NW2].
  unfold a_column. intros a Ia. destruct (negb (d_tiles _ _ _ _ _)); [|destruct (negb (d_ranks _ _ _ _ _))].
  - apply in_map_iff in Ia as (t & <- & It). unfold a_single in It. apply in_flat_map in It as (z & _ & It). rewrite ie_eq in It by exact R. cbn [In] in It. destruct It as [<-|[<-|[]]]; cbn [act_writes tj_out In]; intros [E|[]]; [contradiction|]. apply (NE i); [tauto|exact E].
  - apply in_map_iff in Ia as (t & <- & It). unfold a_double in It. cbv zeta in It. apply in_flat_map in It as (z & _ & It). rewrite ie_eq in It by exact R. cbn [In] in It. destruct It as [<-|[<-|[<-|[<-|[]]]]]; cbn [act_writes tj_out In]; intros [E|[]]; first [contradiction | apply (NE i); [tauto|exact E] | apply (NE (i + 1)); [tauto|exact E]].
  - unfold a_two, a_w2, c_sum, a_add, a_e, d_e in Ia. rewrite ie_eq in Ia by exact R. cbn [In] in Ia. destruct Ia as [<-|[<-|[<-|[<-|[]]]]]; cbn [act_writes tj_out ca_out olist In]; intros [E|[]]; try contradiction.
    destruct (is_top _ _ _ _ _); [apply (NE i); [tauto|exact E] | apply (NE (i + 1)); [tauto|exact E]].
Qed.
Lemma Ed_at : forall s p y, 0 <= p < 1 + rows -> y / nb = jg -> (snd srcE + jg) mod Q = c -> Ed s (i * b + p) y = stack2 b (s (bE rt i jg)) (s (bE er (i + 1) jg)) p (y mod nb).
Proof using DDH DDE Hb Hm Hj Hst SR Lc Hg.
  intros s p y Lp EY EC. assert (ROWS : rows = Z.min (2 * b) (m - i * b) - 1) by reflexivity. unfold Ed, stack2. rewrite EY, EC, SR. destruct (Z.ltb_spec p b) as [L|L].
  - destruct (blk_div P Q m mb b ne nb srcH srcE DH DE DDH DDE Hb i p ip ltac:(lia)) as [-> _]. rewrite div_b, mod_b by (first [exact Hb | lia]). reflexivity.
  - replace (i * b + p) with ((i + 1) * b + (p - b)) by lia. destruct (blk_div P Q m mb b ne nb srcH srcE DH DE DDH DDE Hb (i + 1) (p - b) ltac:(lia) ltac:(lia)) as [-> _].
    rewrite div_b, mod_b by (first [exact Hb | lia]). assert (ER : rk Q ((fst srcH + (i + 1) * b / mb) mod P) c = er); [|rewrite ER; reflexivity].
    destruct (bool_dec acr true) as [A|A]; [|apply not_true_is_false in A]; rewrite A.
    + destruct (acr_rows cplx P Q m mb b ne nb srcH srcE DH DE DDH DDE Hb j step Hj Hst A) as (_ & _ & ->). reflexivity.
    + unfold DistBtB2TEvents.acr in A. replace ((i + 1) * b <? m) with true in A by lia. cbn [andb] in A. apply negb_false_iff, Z.eqb_eq in A. rewrite <- A. reflexivity.
Qed.
Lemma bt_hh_lst : forall st a d, bt_hh b (fun x p q => HHd st (t_row x * b + p) (t_col x * b + q)) a d = HHd st a d.
Proof using Hb. intros st a d. unfold bt_hh, tHH. cbn [t_row t_col]. f_equal; [rewrite (Z.div_mod a b) at 3 by lia|rewrite (Z.div_mod d b) at 3 by lia]; lia. Qed.
Lemma je_run : 0 <= je < lnt Q DE rt Col -> forall st s, vw st s rt -> (acr = true -> vw st s rb) -> let s' := erun mem (G_je c je) s in
  forall a y, 0 <= a < m -> 0 <= y < ne -> y / nb = jg -> Ed s' a y = happly m b (HHd st) (blk cplx m b j step) (Ed s) a y.
Proof using KO LO DDH DDE Hb Hg Hm Hj Hst SR Lc Rt Rb.
  intros LE st s V1 V2 s' a y La Ly EY. assert (ROWS : rows = Z.min (2 * b) (m - i * b) - 1) by reflexivity.
  set (lst := (fun x p q => HHd st (t_row x * b + p) (t_col x * b + q)) : tstore (mat K)).
  rewrite <- (happly_V m b _ (bt_hh b lst) (HHd st)) by (apply bt_hh_lst). pose proof (Hnb P Q m mb b ne nb srcE DE DDE) as NBp.
  destruct (x_gl P Q m mb b ne nb srcE DE DDE rt Rt je LE) as (J0 & J1 & J2). rewrite co_col in J2 by assumption.
  assert (YM := Z.mod_pos_bound y nb NBp). assert (YD := Z.div_mod y nb ltac:(lia)). rewrite EY in YD.
  destruct (Z.ltb_spec a (i * b)) as [L1|L1]; [|destruct (Z.ltb_spec a (i * b + 1 + rows)) as [L2|L2]].
  - rewrite (block_outside cplx m b Hb Hm j step Hj Hst lst) by (first [exact La | rewrite b_i; lia]). unfold Ed, s'. rewrite je_frame; [reflexivity|cbn; lia|]. right. right. cbn [bE t_row]. assert (a / b < i) by (apply Z.div_lt_upper_bound; lia). lia.
  - replace a with (i * b + (a - i * b)) by lia. set (p := a - i * b). rewrite Ed_at by (first [exact EY | exact J2 | lia]). unfold s'. rewrite (je_tiles st s V1 V2) by lia.
    transitivity (happly m b (bt_hh b lst) (blk cplx m b j step) (fun a q => Ed s a (jg * nb + q)) (i * b + p) (y mod nb)).
    + pose proof (block_happly cplx m b g' Hb gpos Hm j step Hj Hst lst (s (vT rt)) (proj1 V1) (fun a q => Ed s a (jg * nb + q)) p (y mod nb) ltac:(lia)) as BH.
      rewrite b_i in BH. etransitivity; [|exact BH]. clear BH.
      apply (spec_ext cplx m b g' Hb gpos Hm j step Hj Hst lst (s (vT rt)) (rev (group_cols k g'))); [intros z; apply group_in| |lia].
      intros p' Lp'. rewrite Ed_at.
      * replace ((jg * nb + y mod nb) mod nb) with (y mod nb); [reflexivity|]. rewrite Z.add_comm, Z.mod_add by lia. rewrite Z.mod_mod by lia. reflexivity.
      * exact Lp'.
      * rewrite Z.div_add_l by lia. rewrite (Z.div_small (y mod nb) nb) by exact YM. apply Z.add_0_r.
      * exact J2.
    + apply happly_col; [|lia]. intros a' La'. cbv beta. replace (jg * nb + y mod nb) with y by lia. reflexivity.
  - rewrite (block_outside cplx m b Hb Hm j step Hj Hst lst) by (first [exact La | rewrite b_i; lia]). unfold Ed, s'. rewrite je_frame; [reflexivity|cbn; lia|]. right. right. cbn [bE t_row]. assert (i + 2 <= a / b) by (apply Z.div_le_lower_bound; lia). lia.
Qed.
End je.

Notation OP := (happly m b).
Notation BL := (blk cplx m b j step).
Lemma col_run : forall st s, has st s rt -> let s' := erun mem (G_col c) s in
  (forall x, t_mat x = 0 -> s' x = s x) /\
  (forall a y, 0 <= a < m -> 0 <= y < ne -> Ed s' a y = if (snd srcE + y / nb) mod Q =? c then OP (HHd st) BL (Ed s) a y else Ed s a y).
Proof using KO LO DDH DDE Hb Hg Hm Hj Hst SR Lc Rt Rb.
  intros st s H s'. pose proof (Hnb P Q m mb b ne nb srcE DE DDE) as NBp. pose proof (x_lnt P Q m mb b ne nb srcE DE DDE rt Rt) as LN.
  assert (TL : forall y, 0 <= y < ne -> 0 <= y / nb /\ y / nb * nb < ne).
  { intros y Ly. assert (YD := Z.div_mod y nb ltac:(lia)). assert (YM := Z.mod_pos_bound y nb NBp). assert (0 <= y / nb) by (apply Z.div_pos; lia). lia. }
  unfold s', g_col. destruct (Z.eqb_spec (lnt Q DE rt Col) 0) as [E0|N0].
  { split; [reflexivity|]. intros a y La Ly. destruct (Z.eqb_spec ((snd srcE + y / nb) mod Q) c) as [EC|]; [|reflexivity]. exfalso.
    destruct (TL y Ly) as [T1 T2]. destruct (x_gl_inv P Q m mb b ne nb srcE DE DDE rt Rt (y / nb) T1 T2) as (l & Ll & _); [rewrite co_col by assumption; exact EC|]. lia. }
  rewrite !(erun_app P Q). destruct (send_run st s H) as (F1 & H1 & H2). set (s1 := erun mem (G_send c) s) in *.
  destruct (comp_run st s1 H1 H2) as (F2 & V1 & V2). set (s2 := erun mem (G_comp c) s1) in *.
  assert (F : forall x, t_mat x < 2 -> s2 x = s x) by (intros x Lx; rewrite F2, F1 by lia; reflexivity). clear F1 F2 H H1 H2.
  assert (FE : forall a y, Ed s2 a y = Ed s a y) by (intros a y; unfold Ed; rewrite F by (cbn; lia); reflexivity).
  set (Inv := fun l (t : tstore (mat K)) => vw st t rt /\ (acr = true -> vw st t rb) /\ (forall x, t_mat x = 0 -> t x = s x) /\
    (forall je a y, 0 <= je < l -> 0 <= a < m -> 0 <= y < ne -> y / nb = t_gl Q DE rt Col je -> Ed t a y = OP (HHd st) BL (Ed s) a y) /\
    (forall a y, (forall je, 0 <= je < l -> y / nb <> t_gl Q DE rt Col je) -> Ed t a y = Ed s a y)).
  assert (IN : Inv (lnt Q DE rt Col) (erun mem (flat_map (G_je c) (zrange 0 (lnt Q DE rt Col))) s2)).
  { apply (erun_flat_inv P Q (G_je c) 0 (lnt Q DE rt Col) Inv); [exact LN| |].
    - split; [exact V1|split; [exact V2|split; [|split]]]; [intros x Lx; apply F; lia|intros; lia|intros a y _; apply FE].
    - intros l t Ll (W1 & W2 & I1 & I2 & I3). pose proof par as PW.
      assert (FR : forall x, t_mat x < 10 -> t_mat x <> 1 -> erun mem (G_je c l) t x = t x) by (intros x L1 L2; apply je_frame; [exact L1|left; exact L2]).
      assert (VX : forall r, vw st t r -> vw st (erun mem (G_je c l) t) r).
      { intros r. apply vw_ext; apply FR; unfold bV, bW; cbn [t_mat]; lia. }
      split; [apply VX; exact W1|split; [intros A; apply VX; apply W2; exact A|split; [|split]]].
      + intros x Lx. rewrite FR by lia. apply I1. exact Lx.
      + intros je a y Lj La Ly EY. destruct (Z.eq_dec je l) as [->|NE].
        * rewrite (je_run l Ll st t W1 W2 a y La Ly EY). apply happly_col; [|exact La]. intros a' La'. apply I3. intros je' Lj'. rewrite EY. intros E.
          apply (x_gl_inj P Q m mb b ne nb srcE DE DDE rt Rt) in E; lia.
        * rewrite <- (I2 je a y) by (first [lia | assumption]). unfold Ed. rewrite je_frame; [reflexivity|cbn; lia|]. right. left. cbn [bE t_col]. rewrite EY. intros E.
          apply (x_gl_inj P Q m mb b ne nb srcE DE DDE rt Rt) in E; lia.
      + intros a y NO. rewrite <- I3 by (intros je Lj; apply NO; lia). unfold Ed. rewrite je_frame; [reflexivity|cbn; lia|]. right. left. cbn [bE t_col]. apply NO. lia. }
  destruct IN as (_ & _ & I1 & I2 & I3). split; [exact I1|]. intros a y La Ly. destruct (TL y Ly) as [T1 T2]. destruct (Z.eqb_spec ((snd srcE + y / nb) mod Q) c) as [EC|NC].
  - destruct (x_gl_inv P Q m mb b ne nb srcE DE DDE rt Rt (y / nb) T1 T2) as (l & Ll & El); [rewrite co_col by assumption; exact EC|]. apply (I2 l); [exact Ll|exact La|exact Ly|symmetry; exact El].
  - apply I3. intros je Lj E. destruct (x_gl P Q m mb b ne nb srcE DE DDE rt Rt je Lj) as (_ & _ & J2). rewrite co_col in J2 by assumption. rewrite <- E in J2. contradiction.
Qed.
Lemma col_other : forall s x, co Col (t_rank x) <> c -> erun mem (G_col c) s x = s x.
Proof using DDH DDE Hb Hm Hj Hst SR Lc Hg.
  intros s x N. assert (OK := col_ok kn larft cplx P Q m mb b g ne nb srcH srcE DH DE DDH DDE Hb Hm kk j step Hj Hst c Lc).
  apply erun_frame_nil; [exact OK|]. destruct (in_dec Z.eq_dec (t_rank x) rks) as [R|NR]; [|apply proj_out; assumption].
  apply (pj_col_nil kn larft cplx P Q m mb b g ne nb srcH srcE DH DE DDH DDE SR Hb Hm kk j step Hj Hst (t_rank x) R c Lc). left. exact N.
Qed.
End col.
Theorem block_run : forall st, let s := erun mem G_block st in
  (forall x, t_mat x = 0 -> s x = st x) /\
  (forall a y, 0 <= a < m -> 0 <= y < ne -> Ed s a y = happly m b (HHd st) (blk cplx m b j step) (Ed st) a y).
Proof using KO LO DDH DDE Hb Hg Hm Hj Hst SR.
  intros st s. unfold s, g_block. rewrite (erun_app P Q). destruct (bcast_run st) as [F1 H1]. set (s1 := erun mem G_bcast st) in *.
  assert (FE : forall a y, Ed s1 a y = Ed st a y) by (intros a y; unfold Ed; rewrite F1 by (cbn; lia); reflexivity).
  set (Inv := fun l (t : tstore (mat K)) => (forall x, t_mat x = 0 -> t x = st x) /\ (forall c, l <= c < Q -> has st t (rk Q hrow c)) /\
    (forall a y, 0 <= a < m -> 0 <= y < ne -> Ed t a y = if (snd srcE + y / nb) mod Q <? l then happly m b (HHd st) (blk cplx m b j step) (Ed st) a y else Ed st a y)).
  assert (IN : Inv Q (erun mem (flat_map G_col (zrange 0 Q)) s1)).
  { apply (erun_flat_inv P Q G_col 0 Q Inv); [lia| |].
    - split; [intros x Lx; apply F1; lia|split; [exact H1|]]. intros a y La Ly. assert (M := Z.mod_pos_bound (snd srcE + y / nb) Q HQ). replace (_ <? 0) with false by lia. apply FE.
    - intros c t Lc (I1 & I2 & I3). destruct (col_run c Lc st t (I2 c ltac:(lia))) as [C1 C2]. set (t' := erun mem (G_col c) t) in *. split; [|split].
      + intros x Lx. rewrite C1 by exact Lx. apply I1. exact Lx.
      + intros c' Lc' p q Lp Lq. unfold t'. rewrite col_other; [apply I2; [lia|exact Lp|exact Lq]|exact Lc|]. rewrite hh_tile_rank, co_col by (first [exact hri | lia]). lia.
      + intros a y La Ly. rewrite C2 by assumption. destruct (Z.eqb_spec ((snd srcE + y / nb) mod Q) c) as [EC|NC].
        * replace (_ <? c + 1) with true by lia. apply happly_col; [|exact La]. intros a' La'. rewrite I3 by assumption. replace (_ <? c) with false by lia. reflexivity.
        * rewrite I3 by assumption. replace (_ <? c + 1) with ((snd srcE + y / nb) mod Q <? c) by lia. reflexivity. }
  destruct IN as (I1 & _ & I3). split; [exact I1|]. intros a y La Ly. rewrite I3 by assumption. assert (M := Z.mod_pos_bound (snd srcE + y / nb) Q HQ). replace (_ <? Q) with true by lia. reflexivity.
Qed.
End block.
End pr.
