(** * The contract of laed4 can be met: the roots of the secular equation exist (intermediate value theorem). *)
From Coq Require Import ZArith Lia List Bool Reals Ranalysis5 Lra Psatz.
From Verif Require Import CInt Loop DcSums DcSecular DcModel DcRank1.
Import ListNotations.
Local Open Scope R_scope.

Lemma cont_rsum : forall lo hi (f : Z -> R -> R) a, (forall l, (lo <= l < hi)%Z -> continuity_pt (f l) a) -> continuity_pt (fun x => rsum lo hi (fun l => f l x)) a.
Proof.
  intros lo hi f a H. destruct (Z.le_gt_cases hi lo) as [L|L].
  - apply (continuity_pt_locally_ext (fun _ => 0) _ 1 a); [lra|intros y _; symmetry; apply rsum_nil; lia|apply continuity_pt_const; intros x y; reflexivity].
  - assert (X : forall m, (0 <= m)%Z -> (lo + m <= hi)%Z -> continuity_pt (fun x => rsum lo (lo + m) (fun l => f l x)) a).
    { intros m Lm. pattern m. apply natlike_ind; [| |exact Lm].
      - intros _. apply (continuity_pt_locally_ext (fun _ => 0) _ 1 a); [lra|intros y _; symmetry; apply rsum_nil; lia|apply continuity_pt_const; intros x y; reflexivity].
      - intros x Lx IH Ls. unfold Z.succ in *. apply (continuity_pt_locally_ext (fun y => rsum lo (lo + x) (fun l => f l y) + f (lo + x)%Z y) _ 1 a); [lra|intros y _; symmetry; rewrite Z.add_assoc; apply rsum_snoc; lia|].
        apply (continuity_pt_plus (fun y => rsum lo (lo + x) (fun l => f l y)) (f (lo + x)%Z)); [apply IH; lia|apply H; lia]. }
    specialize (X (hi - lo)%Z ltac:(lia) ltac:(lia)). replace (lo + (hi - lo))%Z with hi in X by lia. exact X.
Qed.
Lemma cont_lin : forall c a, continuity_pt (fun x => c - x) a.
Proof. intros. apply (continuity_pt_minus (fun _ => c) (fun x => x)); [apply continuity_pt_const; intros x y; reflexivity|apply derivable_continuous_pt, derivable_pt_id]. Qed.
Lemma cont_term : forall w c a, c <> a -> continuity_pt (fun x => w / (c - x)) a.
Proof.
  intros w c a N. apply (continuity_pt_div (fun _ => w) (fun x => c - x)); [apply continuity_pt_const; intros x y; reflexivity|apply cont_lin|lra].
Qed.
Lemma cont_const : forall c a, continuity_pt (fun _ : R => c) a.
Proof. intros. apply continuity_pt_const. intros x y. reflexivity. Qed.

Section root.
Variables (k i : Z) (d z : Z -> R) (rho : R).
Hypothesis LK : (2 <= k)%Z.
Hypothesis LI : (0 <= i < k)%Z.
Hypothesis ASC : forall p q, (0 <= p < q)%Z -> (q < k)%Z -> d p < d q.
Hypothesis RHO : 0 < rho.
Hypothesis ZNZ : forall l, (0 <= l < k)%Z -> z l <> 0.
Notation w l := (rho * (z l * z l)).
Lemma w_pos : forall l, (0 <= l < k)%Z -> 0 < w l.
Proof using RHO ZNZ. intros l Ll. apply Rmult_lt_0_compat; [exact RHO|]. pose proof (ZNZ l Ll). nra. Qed.
Definition root_spec (lam : R) : Prop := d i < lam /\ ((i + 1 < k)%Z -> lam < d (i + 1)%Z) /\ rsum 0 k (fun l => w l / (d l - lam)) = -1.

(** between two values *)
Lemma root_inner : (i + 1 < k)%Z -> { lam | root_spec lam }.
Proof using LK LI ASC RHO ZNZ.
  intros L1. set (j := (i + 1)%Z) in *.
  set (h := fun x => rsum 0 k (fun l => if (Z.eqb l i || Z.eqb l j)%bool then 0 else w l / (d l - x))).
  set (g := fun x => - ((d i - x) * ((d j - x) * (1 + h x)) + (w i * (d j - x) + w j * (d i - x)))).
  assert (DIJ : d i < d j) by (apply ASC; lia). pose proof (w_pos i ltac:(lia)) as Wi. pose proof (w_pos j ltac:(lia)) as Wj.
  destruct (IVT_interv g (d i) (d j)) as (lam & LL & GL).
  - intros a La. unfold g.
    assert (CH : continuity_pt h a).
    { unfold h. apply (cont_rsum 0 k (fun l x => if (Z.eqb l i || Z.eqb l j)%bool then 0 else w l / (d l - x))). intros l Ll.
      destruct (Z.eqb_spec l i); [cbn [orb]; apply cont_const|]. destruct (Z.eqb_spec l j); [cbn [orb]; apply cont_const|]. cbn [orb]. apply cont_term.
      destruct (Z.lt_ge_cases l i); [pose proof (ASC l i ltac:(lia) ltac:(lia)); lra|]. pose proof (ASC j l ltac:(lia) ltac:(lia)). lra. }
    apply (continuity_pt_opp (fun x => (d i - x) * ((d j - x) * (1 + h x)) + (w i * (d j - x) + w j * (d i - x)))).
    apply (continuity_pt_plus (fun x => (d i - x) * ((d j - x) * (1 + h x))) (fun x => w i * (d j - x) + w j * (d i - x))).
    + apply (continuity_pt_mult (fun x => d i - x) (fun x => (d j - x) * (1 + h x))); [apply cont_lin|].
      apply (continuity_pt_mult (fun x => d j - x) (fun x => 1 + h x)); [apply cont_lin|]. apply (continuity_pt_plus (fun _ => 1) h); [apply cont_const|exact CH].
    + apply (continuity_pt_plus (fun x => w i * (d j - x)) (fun x => w j * (d i - x))).
      * apply (continuity_pt_mult (fun _ => w i) (fun x => d j - x)); [apply cont_const|apply cont_lin].
      * apply (continuity_pt_mult (fun _ => w j) (fun x => d i - x)); [apply cont_const|apply cont_lin].
  - exact DIJ.
  - unfold g. rewrite Rminus_diag_eq by reflexivity. pose proof (Rmult_lt_0_compat _ _ Wi (Rlt_Rminus _ _ DIJ)). lra.
  - unfold g. rewrite (Rminus_diag_eq (d j) (d j)) by reflexivity. pose proof (Rmult_lt_0_compat _ _ Wj (Rlt_Rminus _ _ DIJ)). lra.
  - exists lam. unfold g in GL.
    assert (Ni : lam <> d i). { intros ->. rewrite (Rminus_diag_eq (d i) (d i)) in GL by reflexivity. pose proof (Rmult_lt_0_compat _ _ Wi (Rlt_Rminus _ _ DIJ)). lra. }
    assert (Nj : lam <> d j). { intros ->. rewrite (Rminus_diag_eq (d j) (d j)) in GL by reflexivity. pose proof (Rmult_lt_0_compat _ _ Wj (Rlt_Rminus _ _ DIJ)). lra. }
    split; [lra|]. split; [intros _; fold j; lra|].
    rewrite (rsum_ext 0 k _ (fun l => (if Z.eqb l i then w i / (d i - lam) else 0) + ((if Z.eqb l j then w j / (d j - lam) else 0) + (if (Z.eqb l i || Z.eqb l j)%bool then 0 else w l / (d l - lam))))).
    + rewrite !rsum_add. rewrite (rsum_one 0 k (fun l => if Z.eqb l i then _ else 0) i) by (lia || (intros l Ll N; destruct (Z.eqb_spec l i); [contradiction|reflexivity])).
      rewrite (rsum_one 0 k (fun l => if Z.eqb l j then _ else 0) j) by (lia || (intros l Ll N; destruct (Z.eqb_spec l j); [contradiction|reflexivity])). rewrite !Z.eqb_refl. fold (h lam).
      assert (P : (d i - lam) * (d j - lam) <> 0) by (apply Rmult_integral_contrapositive; split; lra).
      apply (Rmult_eq_reg_l ((d i - lam) * (d j - lam))); [|exact P].
      replace ((d i - lam) * (d j - lam) * (w i / (d i - lam) + (w j / (d j - lam) + h lam))) with (w i * (d j - lam) + w j * (d i - lam) + (d i - lam) * (d j - lam) * h lam) by (field; split; lra). lra.
    + intros l Ll. destruct (Z.eqb_spec l i) as [->|N1]; [destruct (Z.eqb_spec i j); [lia|]; cbn [orb]; ring|]. destruct (Z.eqb_spec l j) as [->|N2]; cbn [orb]; ring.
Qed.
(** above the last value *)
Lemma root_last : (i + 1 = k)%Z -> { lam | root_spec lam }.
Proof using LK LI ASC RHO ZNZ.
  intros L1. set (h := fun x => rsum 0 k (fun l => if Z.eqb l i then 0 else w l / (d l - x))). set (g := fun x => - ((d i - x) * (1 + h x) + w i)). pose proof (w_pos i ltac:(lia)) as Wi.
  set (W := rsum 0 k (fun l => w l)). assert (W0 : 0 <= W) by (apply rsum_nonneg; intros l Ll; pose proof (w_pos l Ll); lra).
  assert (DL : forall l, (0 <= l < k)%Z -> l <> i -> d l < d i) by (intros l Ll N; apply ASC; lia).
  assert (SP : forall x, x <> d i -> rsum 0 k (fun l => w l / (d l - x)) = w i / (d i - x) + h x).
  { intros x _. unfold h. rewrite (rsum_pick 0 k _ i LI). reflexivity. }
  destruct (IVT_interv g (d i) (d i + W + 1)) as (lam & LL & GL).
  - intros a La. unfold g.
    assert (CH : continuity_pt h a).
    { unfold h. apply (cont_rsum 0 k (fun l x => if Z.eqb l i then 0 else w l / (d l - x))). intros l Ll. destruct (Z.eqb_spec l i); [apply cont_const|]. apply cont_term. pose proof (DL l Ll n). lra. }
    apply (continuity_pt_opp (fun x => (d i - x) * (1 + h x) + w i)). apply (continuity_pt_plus (fun x => (d i - x) * (1 + h x)) (fun _ => w i)); [|apply cont_const].
    apply (continuity_pt_mult (fun x => d i - x) (fun x => 1 + h x)); [apply cont_lin|]. apply (continuity_pt_plus (fun _ => 1) h); [apply cont_const|exact CH].
  - lra.
  - unfold g. rewrite Rminus_diag_eq by reflexivity. lra.
  - unfold g. set (u := d i + W + 1). assert (Nu : d i - u < 0) by (unfold u; lra).
    assert (B1 : - (W / (W + 1)) <= rsum 0 k (fun l => w l / (d l - u))).
    { replace (- (W / (W + 1))) with (rsum 0 k (fun l => - / (W + 1) * w l)) by (rewrite rsum_mul_l; fold W; field; lra).
      apply rsum_le. intros l Ll. pose proof (w_pos l Ll) as Wl. assert (DLL : d l <= d i) by (destruct (Z.eq_dec l i) as [->|N]; [lra|pose proof (DL l Ll N); lra]).
      replace (w l / (d l - u)) with (- (w l * / (u - d l))) by (field; lra). replace (- / (W + 1) * w l) with (- (w l * / (W + 1))) by ring.
      apply Ropp_le_contravar. apply Rmult_le_compat_l; [lra|]. apply Rinv_le_contravar; [lra|]. unfold u. lra. }
    rewrite SP in B1 by lra. assert (B2 : W / (W + 1) < 1) by (apply (Rmult_lt_reg_r (W + 1)); [lra|]; unfold Rdiv; rewrite Rmult_assoc, Rinv_l by lra; lra).
    replace ((d i - u) * (1 + h u) + w i) with ((d i - u) * (1 + (w i / (d i - u) + h u))) by (field; lra).
    set (f := 1 + (w i / (d i - u) + h u)) in *. assert (FP : 0 < f) by (unfold f; lra). nra.
  - exists lam. unfold g in GL. assert (Ni : lam <> d i) by (intros ->; rewrite Rminus_diag_eq in GL by reflexivity; lra). split; [lra|]. split; [lia|].
    rewrite SP by exact Ni. assert (X : (d i - lam) * (w i / (d i - lam) + h lam) = (d i - lam) * -1) by (replace ((d i - lam) * (w i / (d i - lam) + h lam)) with (w i + (d i - lam) * h lam) by (field; lra); lra).
    apply (Rmult_eq_reg_l (d i - lam)); [exact X|lra].
Qed.
Definition root : { lam | root_spec lam }.
Proof using LK LI ASC RHO ZNZ. destruct (Z_lt_ge_dec (i + 1) k) as [L|L]; [apply root_inner; exact L|apply root_last; lia]. Defined.
End root.

Lemma forall_dec : forall (P : Z -> Prop), (forall l, {P l} + {~ P l}) -> forall k, {forall l, (0 <= l < k)%Z -> P l} + {~ forall l, (0 <= l < k)%Z -> P l}.
Proof.
  intros P D k. destruct (Forall_dec P D (zrange 0 k)) as [A|A]; [left|right].
  - intros l Ll. rewrite Forall_forall in A. apply A. apply in_zrange. exact Ll.
  - intros H. apply A. apply Forall_forall. intros l I. apply H. apply in_zrange. exact I.
Qed.
Definition pre (k i : Z) (d z : Z -> R) (rho : R) : Prop := (2 <= k)%Z /\ (0 <= i < k)%Z /\ (forall p q, (0 <= p < q)%Z -> (q < k)%Z -> d p < d q) /\ 0 < rho /\ (forall l, (0 <= l < k)%Z -> z l <> 0).
Definition pre_dec : forall k i d z rho, {pre k i d z rho} + {~ pre k i d z rho}.
Proof.
  intros k i d z rho. unfold pre. destruct (Z_le_dec 2 k) as [A|A]; [|right; tauto]. destruct (Z_le_dec 0 i) as [B|B]; [|right; lia]. destruct (Z_lt_dec i k) as [B'|B']; [|right; lia].
  assert (C : {forall p q, (0 <= p < q)%Z -> (q < k)%Z -> d p < d q} + {~ forall p q, (0 <= p < q)%Z -> (q < k)%Z -> d p < d q}).
  { destruct (forall_dec (fun p => forall q, (0 <= q < k)%Z -> (p < q)%Z -> d p < d q)) with (k := k) as [H|H].
    - intros p. apply (forall_dec (fun q => (p < q)%Z -> d p < d q)). intros q. destruct (Z_lt_dec p q) as [L|L]; [|left; lia]. destruct (Rlt_dec (d p) (d q)) as [L'|L']; [left; auto|right; tauto].
    - left. intros p q L1 L2. apply H; lia.
    - right. intros G. apply H. intros p Lp q Lq L. apply G; lia. }
  destruct C as [C|C]; [|right; tauto]. destruct (Rlt_dec 0 rho) as [D|D]; [|right; tauto].
  destruct (forall_dec (fun l => z l <> 0)) with (k := k) as [H|H]; [intros l; destruct (Req_EM_T (z l) 0) as [E|E]; [right; tauto|left; exact E]| |right; tauto].
  left. repeat split; assumption.
Defined.
(** a laed4 in exact arithmetic *)
Definition exact_laed4 (k i : Z) (d z : Z -> R) (rho : R) : (Z -> R) * R :=
  if Z.eqb k 1 then (fun _ => 1, d 0%Z + rho * (z 0%Z * z 0%Z)) else
  match pre_dec k i d z rho with
  | right _ => (fun _ => 0, 0)
  | left H => let lam := proj1_sig (root k i d z rho (proj1 H) (proj1 (proj2 H)) (proj1 (proj2 (proj2 H))) (proj1 (proj2 (proj2 (proj2 H)))) (proj2 (proj2 (proj2 (proj2 H))))) in
    if Z.eqb k 2 then let v := fun l => z l / (d l - lam) in (fun l => / sqrt (rsum 0 k (fun l => v l * v l)) * v l, lam)
    else (fun l => d l - lam, lam)
  end.
Theorem exact_laed4_ok : laed4_ok exact_laed4.
Proof.
  intros k i d z rho delta lam Li E. unfold exact_laed4 in E. destruct (Z.eqb_spec k 1) as [K1|K1].
  - injection E as <- <-. split; [intros _; split; reflexivity|lia].
  - split; [lia|]. intros K2 ASC RHO ZNZ _. destruct (pre_dec k i d z rho) as [H|H].
    2: { exfalso. apply H. unfold pre. repeat split; assumption || lia. }
    set (rt := root _ _ _ _ _ _ _ _ _ _) in E. destruct rt as (mu & R1 & R2 & R3). cbn [proj1_sig] in E.
    assert (DN : forall l, (0 <= l < k)%Z -> d l - mu <> 0).
    { intros l Ll. destruct (Z.lt_ge_cases i l) as [L|L].
      - assert (mu < d l); [|lra]. specialize (R2 ltac:(lia)). destruct (Z.eq_dec l (i + 1)) as [->|N]; [exact R2|]. pose proof (ASC (i + 1)%Z l ltac:(lia) ltac:(lia)). lra.
      - assert (d l < mu); [|lra]. destruct (Z.eq_dec l i) as [->|N]; [exact R1|]. pose proof (ASC l i ltac:(lia) ltac:(lia)). lra. }
    destruct (Z.eqb_spec k 2) as [E2|E2]; injection E as <- <-.
    + split; [exact R1|]. split; [exact R2|]. split; [exact R3|]. split; [|lia]. intros _. set (v := fun l => z l / (d l - mu)). set (S := rsum 0 k (fun l => v l * v l)).
      assert (SP : 0 < S).
      { assert (v 0%Z * v 0%Z <= S) by (apply (rsum_ge_one 0 k (fun l => v l * v l)); [intros; nra|lia]). assert (v 0%Z <> 0); [|nra]. unfold v, Rdiv. apply Rmult_integral_contrapositive. split; [apply ZNZ; lia|apply Rinv_neq_0_compat, DN; lia]. }
      pose proof (sqrt_lt_R0 S SP). pose proof (sqrt_sqrt S ltac:(lra)) as SS. split.
      * rewrite (rsum_ext 0 k _ (fun l => (/ sqrt S * / sqrt S) * (v l * v l))) by (intros l Ll; change (sqrt (rsum 0 k (fun l0 => z l0 / (d l0 - mu) * (z l0 / (d l0 - mu))))) with (sqrt S); change (z l / (d l - mu)) with (v l); ring). rewrite rsum_mul_l. fold S. set (t := sqrt S) in *. rewrite <- SS. field. lra.
      * exists (/ sqrt S). intros l Ll. reflexivity.
    + split; [exact R1|]. split; [exact R2|]. split; [exact R3|]. split; [lia|]. intros _ l Ll. reflexivity.
Qed.
