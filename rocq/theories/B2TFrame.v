(** * What the actions of band_to_tridiag read and write is inside their footprints *)
From Coq Require Import ZArith Lia List Bool Ring Sorting.Sorted.
From Verif Require Import Loop StarField DenseSpec HouseSpec HouseModel SemModel SemProofs Reorder B2TModel B2TSched.
Import ListNotations.
Local Open Scope Z_scope.

(** lapack::larfg(n, alpha, x, 1, tau) reads the n elements only *)
Definition larfg_local {K : starfield} (lf : larfg_fn K) : Prop := forall n x x', 0 < n -> (forall i, 0 <= i < n -> x i = x' i) ->
  fst (fst (lf n x)) = fst (fst (lf n x')) /\ snd (lf n x) = snd (lf n x') /\ (forall i, 0 < i < n -> snd (fst (lf n x)) i = snd (fst (lf n x')) i).

Section rect.
Context {K : starfield}.
Implicit Types B : Z -> F K.
Lemma rect_at : forall B p ld m n c f x y, m <= ld -> 0 <= x < m -> 0 <= y < n -> c x y = true -> rect_set B p ld m n c f (p + x + y * ld) = f x y.
Proof.
  intros B p ld m n c f x y Lm Lx Ly C. unfold rect_set. replace (p + x + y * ld - p) with (x + y * ld) by lia.
  rewrite Z.mod_add, Z.mod_small, Z.div_add, Z.div_small, Z.add_0_l by lia.
  replace ((x <? m) && (0 <=? y) && (y <? n)) with true by lia. rewrite C. reflexivity.
Qed.
Lemma rect_case : forall B p ld m n c f z, 0 < ld -> m <= ld ->
  (exists x y, 0 <= x < m /\ 0 <= y < n /\ c x y = true /\ z = p + x + y * ld /\ rect_set B p ld m n c f z = f x y) \/ rect_set B p ld m n c f z = B z.
Proof.
  intros B p ld m n c f z Ll Lm. unfold rect_set. set (x := (z - p) mod ld). set (y := (z - p) / ld).
  assert (E : z = p + x + y * ld) by (pose proof (Z.div_mod (z - p) ld); lia).
  assert (X : 0 <= x < ld) by (apply Z.mod_pos_bound; lia).
  destruct ((x <? m) && (0 <=? y) && (y <? n)) eqn:E1; [|right; reflexivity]. destruct (c x y) eqn:C; [|right; reflexivity].
  left. exists x, y. cbn. repeat split; try lia; auto.
Qed.
Lemma rect_out : forall B p ld m n c f z, 0 < ld -> m <= ld -> (forall x y, 0 <= x < m -> 0 <= y < n -> c x y = true -> z <> p + x + y * ld) -> rect_set B p ld m n c f z = B z.
Proof. intros B p ld m n c f z L1 L2 N. destruct (rect_case B p ld m n c f z L1 L2) as [(x & y & X & Y & C & E & _)|E]; [|exact E]. exfalso. apply (N x y X Y C E). Qed.
Variable S : Z -> bool.
Definition inside (p ld m n : Z) (c : Z -> Z -> bool) : Prop := forall x y, 0 <= x < m -> 0 <= y < n -> c x y = true -> S (p + x + y * ld) = true.
Definition agree (B B' : Z -> F K) : Prop := forall z, S z = true -> B z = B' z.
Definition stays (B B' : Z -> F K) : Prop := forall z, S z = false -> B' z = B z.
Lemma rect_agree : forall B B' p ld m n c f g, 0 < ld -> m <= ld -> agree B B' -> (forall x y, 0 <= x < m -> 0 <= y < n -> c x y = true -> f x y = g x y) ->
  agree (rect_set B p ld m n c f) (rect_set B' p ld m n c g).
Proof.
  intros B B' p ld m n c f g Ll Lm AG FG z Sz. unfold rect_set. set (x := (z - p) mod ld). set (y := (z - p) / ld).
  assert (X : 0 <= x < ld) by (apply Z.mod_pos_bound; lia).
  destruct ((x <? m) && (0 <=? y) && (y <? n)) eqn:E1; [|apply AG, Sz]. destruct (c x y) eqn:C; [|apply AG, Sz].
  cbn. apply FG; [lia|lia|exact C].
Qed.
Lemma rect_stays : forall B p ld m n c f, 0 < ld -> m <= ld -> inside p ld m n c -> stays B (rect_set B p ld m n c f).
Proof.
  intros B p ld m n c f Ll Lm IN z Sz. apply rect_out; [exact Ll|exact Lm|]. intros x y X Y C ->. rewrite (IN x y X Y C) in Sz. discriminate.
Qed.
Lemma stays_trans : forall B B1 B2, stays B B1 -> stays B1 B2 -> stays B B2.
Proof. intros B B1 B2 H1 H2 z Sz. rewrite (H2 z Sz). apply H1, Sz. Qed.
Lemma stays_refl : forall B, stays B B.
Proof. intros B z _. reflexivity. Qed.

Lemma ger_agree : forall m n al al' x x' y y' B B' p ld, 0 < ld -> m <= ld -> inside p ld m n everywhere -> agree B B' -> al = al' ->
  (forall i, 0 <= i < m -> x i = x' i) -> (forall j, 0 <= j < n -> y j = y' j) -> agree (ger m n al x y B p ld) (ger m n al' x' y' B' p ld).
Proof.
  intros m n al al' x x' y y' B B' p ld Ll Lm IN AG <- EX EY. apply rect_agree; [exact Ll|exact Lm|exact AG|]. intros i j Li Lj C.
  unfold view. rewrite (AG (p + i + j * ld)) by (apply IN; assumption). rewrite (EX i Li), (EY j Lj). reflexivity.
Qed.
Lemma ger_stays : forall m n al x y B p ld, 0 < ld -> m <= ld -> inside p ld m n everywhere -> stays B (ger m n al x y B p ld).
Proof. intros. apply rect_stays; assumption. Qed.
Lemma herm_agree : forall n tau tau' (v v' : Z -> F K) B B' p ld, 0 < ld -> n <= ld -> inside p ld n n (fun i j => j <=? i) -> agree B B' -> tau = tau' -> (forall i, 0 <= i < n -> v i = v' i) ->
  agree (hh_herm n tau v B p ld) (hh_herm n tau' v' B' p ld).
Proof.
  intros n tau tau' v v' B B' p ld Ll Ln IN AG <- EV.
  assert (VW : forall i j, 0 <= i < n -> 0 <= j < n -> herm Lower (view B p ld) i j = herm Lower (view B' p ld) i j).
  { intros i j Li Lj. unfold herm, in_tri, view. destruct (Z.leb_spec j i); [apply AG; apply IN; lia|]. f_equal. apply AG. apply IN; lia. }
  unfold hh_herm. cbv zeta.
  assert (W : forall x, 0 <= x < n -> fmul tau (fsum 0 n (fun y => fmul (herm Lower (view B p ld) x y) (v y))) = fmul tau (fsum 0 n (fun y => fmul (herm Lower (view B' p ld) x y) (v' y)))).
  { intros x Lx. f_equal. apply fsum_ext. intros y Ly. rewrite (VW x y), (EV y) by lia. reflexivity. }
  assert (TM : fsum 0 n (fun x => fmul (fconj (fmul tau (fsum 0 n (fun y => fmul (herm Lower (view B p ld) x y) (v y))))) (v x)) =
               fsum 0 n (fun x => fmul (fconj (fmul tau (fsum 0 n (fun y => fmul (herm Lower (view B' p ld) x y) (v' y))))) (v' x))).
  { apply fsum_ext. intros x Lx. rewrite (W x), (EV x) by lia. reflexivity. }
  rewrite TM. unfold her2. apply rect_agree; [exact Ll|exact Ln|exact AG|]. intros i j Li Lj C.
  rewrite (W i), (W j), (EV i), (EV j) by lia. unfold view. rewrite (AG (p + i + j * ld)) by (apply IN; assumption). reflexivity.
Qed.
Lemma herm_stays : forall n tau (v : Z -> F K) B p ld, 0 < ld -> n <= ld -> inside p ld n n (fun i j => j <=? i) -> stays B (hh_herm n tau v B p ld).
Proof. intros. apply rect_stays; assumption. Qed.
Lemma left_agree : forall m n tau tau' (v v' : Z -> F K) B B' p ld, 0 < ld -> m <= ld -> inside p ld m n everywhere -> agree B B' -> tau = tau' -> (forall i, 0 <= i < m -> v i = v' i) ->
  agree (hh_left m n tau v B p ld) (hh_left m n tau' v' B' p ld).
Proof.
  intros m n tau tau' v v' B B' p ld Ll Lm IN AG <- EV. unfold hh_left. apply ger_agree; try assumption; [reflexivity|].
  intros j Lj. apply fsum_ext. intros i Li. unfold view. rewrite (AG (p + i + j * ld)), (EV i) by (try apply IN; try reflexivity; lia). reflexivity.
Qed.
Lemma right_agree : forall m n tau tau' (v v' : Z -> F K) B B' p ld, 0 < ld -> m <= ld -> inside p ld m n everywhere -> agree B B' -> tau = tau' -> (forall i, 0 <= i < n -> v i = v' i) ->
  agree (hh_right m n tau v B p ld) (hh_right m n tau' v' B' p ld).
Proof.
  intros m n tau tau' v v' B B' p ld Ll Lm IN AG <- EV. unfold hh_right. apply ger_agree; try assumption; [reflexivity|].
  intros i Li. apply fsum_ext. intros j Lj. unfold view. rewrite (AG (p + i + j * ld)), (EV j) by (try apply IN; try reflexivity; lia). reflexivity.
Qed.
Variable lf : larfg_fn K.
Hypothesis LF : larfg_local lf.
(** same tau, same v, memories that agree *)
Definition ragree (r r' : F K * (Z -> F K) * (Z -> F K)) : Prop := fst (fst r) = fst (fst r') /\ (forall i, snd (fst r) i = snd (fst r') i) /\ agree (snd r) (snd r').
Lemma refl_agree : forall n v v' B B' p, 0 < n -> (forall i, 0 <= i < n -> S (p + i) = true) -> agree B B' -> (forall i, v i = v' i) -> ragree (hh_reflector lf n v B p) (hh_reflector lf n v' B' p).
Proof using LF.
  intros n v v' B B' p Ln IN AG EV. unfold hh_reflector.
  destruct (LF n (fun i => B (p + i)) (fun i => B' (p + i))) as (E1 & E2 & E3); [exact Ln|intros i Li; apply AG, IN, Li|].
  destruct (lf n (fun i => B (p + i))) as [[be x] ta], (lf n (fun i => B' (p + i))) as [[be' x'] ta']. cbn [fst snd] in *. subst be' ta'. split; [reflexivity|]. cbn [fst snd]. split.
  - intros i. destruct (i =? 0); [reflexivity|]. destruct ((0 <? i) && (i <? n)) eqn:C; [apply E3; lia|apply EV].
  - intros z Sz. destruct (z =? p); [reflexivity|]. destruct ((p <? z) && (z <? p + n)); [reflexivity|apply AG, Sz].
Qed.
Lemma refl_stays : forall n v B p, 0 < n -> (forall i, 0 <= i < n -> S (p + i) = true) -> stays B (snd (hh_reflector lf n v B p)).
Proof using.
  intros n v B p Ln IN z Sz. unfold hh_reflector. destruct (lf n (fun i => B (p + i))) as [[be x] ta]. cbn [snd].
  assert (N : forall i, 0 <= i < n -> z <> p + i) by (intros i Li ->; rewrite IN in Sz by exact Li; discriminate).
  destruct (Z.eqb_spec z p) as [->|]; [exfalso; apply (N 0); lia|]. destruct ((p <? z) && (z <? p + n)) eqn:C; [|reflexivity]. exfalso. apply (N (z - p)); lia.
Qed.
End rect.

Section frame.
Context {K : starfield} (lf : larfg_fn K).
Variables (cplx : bool) (size nb b nthreads : Z) (A : mat K).
Hypothesis Hs : 0 <= size.
Hypothesis Hb : 2 <= b.
Hypothesis Hnb : 0 < nb.
Hypothesis Hdiv : nb mod b = 0.
Hypothesis Hth : 0 < nthreads.
Notation nt := (nt size nb).
Notation tch := (touches size nb b).
Notation Eff := (b2t_eff lf size nb b nthreads A).
Notation Wr := (b2t_wr size nb b nthreads).
Notation Rd := (b2t_rd size nb b nthreads).
Notation ok := (act_ok cplx size nb b).

(** element (c, o) of the compact band storage: column c, distance o from the diagonal *)
Lemma touches_at : forall a c o z, 0 <= o < 2 * b -> fst (cols_of size nb b a) <= c < snd (cols_of size nb b a) -> z = c * (2 * b) + o -> tch a z = true.
Proof using Hb.
  intros a c o z Lo Lc ->. unfold touches. rewrite Z.add_comm, Z.div_add, Z.div_small, Z.add_0_l by lia. cbv zeta. lia.
Qed.
Lemma ptr_eq : forall o j, ptr b o j = j * (2 * b) + o.
Proof using. intros. unfold ptr, b_ld. lia. Qed.

Lemma copyd_stays : forall k B, ok (CopyD k) -> stays (tch (CopyD k)) B (copy_diag size nb b A k B).
Proof using Hs Hb Hnb Hdiv Hth.
  intros k B OK. cbn [act_ok] in OK. unfold copy_diag. cbv zeta.
  assert (T0 : 0 < tsz size nb k). { unfold tsz. apply proj2 in OK. apply (nt_lt size nb b nthreads Hs Hb Hnb Hdiv Hth) in OK. lia. }
  assert (LD : b_ld b = 2 * b - 1) by reflexivity.
  eapply stays_trans; [|apply rect_stays; [lia|lia|]].
  - match goal with |- context [if ?c then _ else _] => destruct c eqn:C end; [eapply stays_trans; [|apply rect_stays; [lia|lia|]]|].
    + apply rect_stays; [lia|lia|]. intros x y Lx Ly _. rewrite ptr_eq. apply (touches_at _ (k * nb + y) (b + 1 + x)); cbn [cols_of fst snd]; lia.
    + intros x y Lx Ly _. rewrite ptr_eq. apply (touches_at _ (k * nb + y) x); cbn [cols_of fst snd]; lia.
    + apply rect_stays; [lia|lia|]. intros x y Lx Ly _. rewrite ptr_eq. apply (touches_at _ (k * nb + y) (b + 1 + x)); cbn [cols_of fst snd]; lia.
  - intros x y Lx Ly C. rewrite ptr_eq. apply (touches_at _ (k * nb + Z.max 0 (tsz size nb k - b) + y) (x - y)); cbn [cols_of fst snd]; lia.
Qed.
Lemma copyo_stays : forall k B, ok (CopyO k) -> stays (tch (CopyO k)) B (copy_off_diag size nb b A k B).
Proof using Hs Hb Hnb Hdiv Hth.
  intros k B OK. cbn [act_ok] in OK. unfold copy_off_diag. cbv zeta.
  assert (T0 : 0 < tsz size nb (k + 1) /\ tsz size nb k = nb). { unfold tsz. assert (L : k + 1 < nt) by lia. apply (nt_lt size nb b nthreads Hs Hb Hnb Hdiv Hth) in L. lia. }
  assert (LD : b_ld b = 2 * b - 1) by reflexivity. destruct T0 as [T0 TE].
  assert (BN : b <= nb). { destruct (nb_b size nb b nthreads Hs Hb Hnb Hdiv Hth) as (q & E & Lq). nia. }
  match goal with |- stays _ _ (if ?c then _ else _) => destruct c eqn:C end; [eapply stays_trans; [|apply rect_stays; [lia|lia|]]|].
  - apply rect_stays; [lia|lia|]. intros x y Lx Ly D. rewrite ptr_eq. apply (touches_at _ (k * nb + (nb - b) + y) (b + x - y)); cbn [cols_of fst snd]; lia.
  - intros x y Lx Ly _. rewrite ptr_eq. apply (touches_at _ (k * nb + (nb - b) + Z.min b (tsz size nb (k + 1)) + y) (b + x - Z.min b (tsz size nb (k + 1)) - y)); cbn [cols_of fst snd]; lia.
  - apply rect_stays; [lia|lia|]. intros x y Lx Ly D. rewrite ptr_eq. apply (touches_at _ (k * nb + (nb - b) + y) (b + x - y)); cbn [cols_of fst snd]; lia.
Qed.
Lemma copyd_agree : forall k B B' S, ok (CopyD k) -> agree S B B' -> agree S (copy_diag size nb b A k B) (copy_diag size nb b A k B').
Proof using Hs Hb Hnb Hdiv Hth.
  intros k B B' S OK AG. cbn [act_ok] in OK. unfold copy_diag. cbv zeta. assert (LD : b_ld b = 2 * b - 1) by reflexivity.
  assert (AG1 : forall f, agree S (rect_set B (ptr b (b + 1) (k * nb)) (b_ld b + 1) (b - 1) (tsz size nb k) everywhere f) (rect_set B' (ptr b (b + 1) (k * nb)) (b_ld b + 1) (b - 1) (tsz size nb k) everywhere f)).
  { intros f. apply rect_agree; [lia|lia|exact AG|reflexivity]. }
  apply rect_agree; [lia|lia| |reflexivity]. match goal with |- context [if ?c then _ else _] => destruct c eqn:C end; [|apply AG1].
  apply rect_agree; [lia|lia|apply AG1|reflexivity].
Qed.
Lemma copyo_agree : forall k B B' S, ok (CopyO k) -> agree S B B' -> agree S (copy_off_diag size nb b A k B) (copy_off_diag size nb b A k B').
Proof using Hs Hb Hnb Hdiv Hth.
  intros k B B' S OK AG. cbn [act_ok] in OK. unfold copy_off_diag. cbv zeta. assert (LD : b_ld b = 2 * b - 1) by reflexivity.
  match goal with |- agree _ (if ?c then _ else _) _ => destruct c eqn:C end; repeat (apply rect_agree; [lia|lia| |reflexivity]); exact AG.
Qed.

Lemma step_geom : forall s t, ok (Step s t) -> let j := first_row b (wid s t) in let n := size_hhr size b (wid s t) in let m := Z.min b (size - b - j) in
  j = 1 + s + t * b /\ 0 < n <= b /\ j + n = Z.min size (1 + s + (t + 1) * b) /\ (0 < m -> n = b) /\ m <= b.
Proof using Hs Hb Hnb Hdiv Hth.
  intros s t OK. cbn [act_ok] in OK. cbv zeta. rewrite (wid_eq size nb b nthreads Hs Hb Hnb Hdiv Hth) by lia. unfold size_hhr, first_row. cbn [fst snd].
  pose proof (proj1 (steps_lt cplx size nb b nthreads Hs Hb Hnb Hdiv Hth s t (proj1 OK)) (proj2 (proj2 OK))) as H. pose proof (sweeps_le cplx size nb b nthreads Hs Hb Hnb Hdiv Hth) as SL.
  destruct (Z.eqb_spec s (size - 2)) as [E|N]; [assert (t = 0) by lia; subst t; lia|]. lia.
Qed.
Lemma step_parts : forall s t, ok (Step s t) -> let j := first_row b (wid s t) in let n := size_hhr size b (wid s t) in let m := Z.min b (size - b - j) in let S := tch (Step s t) in
  inside S (ptr b 0 j) (b_ld b) n n (fun i j => j <=? i) /\ (0 < m -> inside S (ptr b n j) (b_ld b) m n everywhere) /\
  (0 < m -> forall i, 0 <= i < m -> S (ptr b n j + i) = true) /\ (0 < m -> inside S (ptr b (n - 1) (j + 1)) (b_ld b) m (n - 1) everywhere).
Proof using Hs Hb Hnb Hdiv Hth.
  intros s t OK. pose proof (step_geom s t OK) as G. cbv zeta in *. destruct G as (EJ & Ln & EN & EB & Lm). set (j := first_row b (wid s t)) in *. set (n := size_hhr size b (wid s t)) in *. set (m := Z.min b (size - b - j)) in *.
  assert (LD : b_ld b = 2 * b - 1) by reflexivity. repeat split.
  - intros x y Lx Ly C. rewrite ptr_eq. apply (touches_at _ (j + y) (x - y)); cbn [cols_of fst snd]; lia.
  - intros M x y Lx Ly C. rewrite ptr_eq. apply (touches_at _ (j + y) (n + x - y)); cbn [cols_of fst snd]; lia.
  - intros M i Li. rewrite ptr_eq. apply (touches_at _ j (n + i)); cbn [cols_of fst snd]; lia.
  - intros M x y Lx Ly C. rewrite ptr_eq. apply (touches_at _ (j + 1 + y) (n - 1 + x - y)); cbn [cols_of fst snd]; lia.
Qed.
Lemma step_stays : forall s t tau v B, ok (Step s t) -> stays (tch (Step s t)) B (snd (do_step lf size b (wid s t) tau v B)).
Proof using Hs Hb Hnb Hdiv Hth.
  intros s t tau v B OK. pose proof (step_geom s t OK) as G. pose proof (step_parts s t OK) as P. unfold do_step. cbv zeta in *. destruct G as (EJ & Ln & EN & EB & Lm). destruct P as (P1 & P2 & P3 & P4).
  set (j := first_row b (wid s t)) in *. set (n := size_hhr size b (wid s t)) in *. set (m := Z.min b (size - b - j)) in *. assert (LD : b_ld b = 2 * b - 1) by reflexivity.
  assert (S1 : stays (tch (Step s t)) B (if 0 <? m then hh_right m n tau v (hh_herm n tau v B (ptr b 0 j) (b_ld b)) (ptr b n j) (b_ld b) else hh_herm n tau v B (ptr b 0 j) (b_ld b))).
  { destruct (Z.ltb_spec 0 m); [eapply stays_trans; [|apply ger_stays; [lia|lia|apply P2; lia]]|]; apply herm_stays; try lia; exact P1. }
  revert S1. set (B1 := if 0 <? m then _ else _). intros S1. destruct (Z.ltb_spec 1 m); [|exact S1].
  pose proof (refl_stays (tch (Step s t)) lf m v B1 (ptr b n j) ltac:(lia) (P3 ltac:(lia))) as S2. destruct (hh_reflector lf m v B1 (ptr b n j)) as [[tau' v'] B2]. cbn [snd] in *.
  eapply stays_trans; [exact S1|]. eapply stays_trans; [exact S2|]. apply ger_stays; [lia|lia|apply P4; lia].
Qed.
Hypothesis LF : larfg_local lf.
Lemma step_agree : forall s t tau v v' B B', ok (Step s t) -> (forall i, v i = v' i) -> agree (tch (Step s t)) B B' ->
  ragree (tch (Step s t)) (do_step lf size b (wid s t) tau v B) (do_step lf size b (wid s t) tau v' B').
Proof using Hs Hb Hnb Hdiv Hth LF.
  intros s t tau v v' B B' OK EV AG. pose proof (step_geom s t OK) as G. pose proof (step_parts s t OK) as P. unfold do_step. cbv zeta in *. destruct G as (EJ & Ln & EN & EB & Lm). destruct P as (P1 & P2 & P3 & P4).
  set (j := first_row b (wid s t)) in *. set (n := size_hhr size b (wid s t)) in *. set (m := Z.min b (size - b - j)) in *. assert (LD : b_ld b = 2 * b - 1) by reflexivity.
  assert (S1 : agree (tch (Step s t)) (if 0 <? m then hh_right m n tau v (hh_herm n tau v B (ptr b 0 j) (b_ld b)) (ptr b n j) (b_ld b) else hh_herm n tau v B (ptr b 0 j) (b_ld b))
                                      (if 0 <? m then hh_right m n tau v' (hh_herm n tau v' B' (ptr b 0 j) (b_ld b)) (ptr b n j) (b_ld b) else hh_herm n tau v' B' (ptr b 0 j) (b_ld b))).
  { assert (H1 : agree (tch (Step s t)) (hh_herm n tau v B (ptr b 0 j) (b_ld b)) (hh_herm n tau v' B' (ptr b 0 j) (b_ld b))) by (apply herm_agree; try lia; auto).
    destruct (Z.ltb_spec 0 m); [|exact H1]. apply right_agree; try lia; auto. }
  revert S1. set (B1 := if 0 <? m then hh_right m n tau v _ _ _ else _). set (B1' := if 0 <? m then hh_right m n tau v' _ _ _ else _). intros S1. destruct (Z.ltb_spec 1 m); [|split; [reflexivity|split; [exact EV|exact S1]]].
  pose proof (refl_agree (tch (Step s t)) lf LF m v v' B1 B1' (ptr b n j) ltac:(lia) (P3 ltac:(lia)) S1 EV) as (E1 & E2 & E3).
  destruct (hh_reflector lf m v B1 (ptr b n j)) as [[tau1 v1] B2], (hh_reflector lf m v' B1' (ptr b n j)) as [[tau2 v2] B2']. cbn [fst snd] in *. subst tau2.
  split; [reflexivity|]. split; [exact E2|]. cbn [snd]. apply left_agree; try lia; auto. apply P4. lia.
Qed.
Lemma init_in : forall s, ok (Init s) -> 0 < Z.min (size - s - 1) b /\ forall i, 0 <= i < Z.min (size - s - 1) b -> tch (Init s) (ptr b 1 s + i) = true.
Proof using Hs Hb Hnb Hdiv Hth.
  intros s OK. cbn [act_ok] in OK. pose proof (sweeps_le cplx size nb b nthreads Hs Hb Hnb Hdiv Hth) as SL. split; [lia|]. intros i Li. rewrite ptr_eq. apply (touches_at _ s (1 + i)); cbn [cols_of fst snd]; lia.
Qed.

(** an action changes nothing outside its write footprint *)
Theorem eff_outside : forall a m l, ok a -> Wr a l = false -> Eff a m l = m l.
Proof using Hs Hb Hnb Hdiv Hth.
  intros a m l OK W. destruct a as [k|k|s|s|s t|s t|i]; cbn [b2t_eff].
  - destruct l; try reflexivity. cbn [b2t_wr is_tri] in W. rewrite andb_true_r in W. apply (copyd_stays k (m_band m) OK z W).
  - destruct l; try reflexivity. cbn [b2t_wr is_tri] in W. rewrite andb_true_r in W. apply (copyo_stays k (m_band m) OK z W).
  - unfold put, start_sweep. destruct (init_in s OK) as [L IN].
    pose proof (refl_stays (tch (Init s)) lf _ (fun i => m (LVec (worker size b nthreads s) i)) (m_band m) (ptr b 1 s) L IN) as ST.
    destruct (hh_reflector _ _ _ _ _) as [[tau v] B]. cbn [snd] in ST. destruct l; try reflexivity; cbn [b2t_wr is_tri uses_worker negb] in W; rewrite ?andb_true_r in W.
    + apply (ST z W). + rewrite W. reflexivity. + rewrite W. reflexivity.
  - unfold tri_copy. destruct l as [z|w|w i|i|i|i j]; try reflexivity; cbn [b2t_wr tri_range tri_last cols_of fst snd] in W.
    + replace (s - (nb - 1) + nb) with (s + 1) by lia. rewrite W. reflexivity.
    + replace (s - (nb - 1) + nb) with (s + 1) by lia. rewrite W. reflexivity.
  - destruct l; try reflexivity. cbn [b2t_wr] in W. rewrite W. reflexivity.
  - unfold put. pose proof (step_stays s t (m (LTau (worker size b nthreads s))) (fun i => m (LVec (worker size b nthreads s) i)) (m_band m) OK) as ST.
    destruct (do_step _ _ _ _ _ _ _) as [[tau v] B]. cbn [snd] in ST. destruct l; try reflexivity; cbn [b2t_wr is_tri uses_worker negb] in W; rewrite ?andb_true_r in W.
    + apply (ST z W). + rewrite W. reflexivity. + rewrite W. reflexivity.
  - unfold tri_copy. destruct l as [z|w|w j|j|j|j j']; try reflexivity; cbn [b2t_wr tri_range tri_last cols_of fst snd] in W; rewrite W; reflexivity.
Qed.
(** what an action writes depends on its read footprint only *)
Theorem eff_inside : forall a m m', ok a -> (forall l, Rd a l = true -> m l = m' l) -> forall l, Wr a l = true -> Eff a m l = Eff a m' l.
Proof using Hs Hb Hnb Hdiv Hth LF.
  intros a m m' OK RD l W.
  assert (AG : agree (tch a) (m_band m) (m_band m')) by (intros z Sz; apply RD; exact Sz).
  destruct a as [k|k|s|s|s t|s t|i]; cbn [b2t_eff].
  - destruct l; try discriminate W. + apply copyd_agree with (S := tch (CopyD k)); [exact OK|exact AG|]. cbn [b2t_wr] in W. apply andb_prop in W. tauto. + cbn [b2t_wr tri_range fst snd] in W. exfalso. lia. + cbn [b2t_wr tri_range tri_last fst snd] in W. exfalso. lia.
  - destruct l; try discriminate W. + apply copyo_agree with (S := tch (CopyO k)); [exact OK|exact AG|]. cbn [b2t_wr] in W. apply andb_prop in W. tauto. + cbn [b2t_wr tri_range fst snd] in W. exfalso. lia. + cbn [b2t_wr tri_range tri_last fst snd] in W. exfalso. lia.
  - unfold put, start_sweep. destruct (init_in s OK) as [L IN].
    assert (EV : forall i, m (LVec (worker size b nthreads s) i) = m' (LVec (worker size b nthreads s) i)) by (intros i; apply RD; cbn [b2t_rd uses_worker]; apply Z.eqb_refl).
    pose proof (refl_agree (tch (Init s)) lf LF (Z.min (size - s - 1) b) _ _ (m_band m) (m_band m') (ptr b 1 s) L IN AG EV) as (E1 & E2 & E3).
    destruct (hh_reflector _ _ _ _ _) as [[tau v] B]. destruct (hh_reflector _ _ _ (m_band m') _) as [[tau' v'] B']. cbn [fst snd] in *.
    destruct l; try discriminate W; cbn [b2t_wr is_tri uses_worker negb tri_range tri_last fst snd] in W; rewrite ?andb_true_r in W; try (exfalso; lia).
    + apply E3, W. + rewrite W. exact E1. + rewrite W. apply E2.
  - unfold tri_copy. destruct l as [z|w|w i|i|i|i j]; cbn [b2t_wr is_tri uses_worker tri_range tri_last cols_of fst snd negb] in W; rewrite ?andb_false_r in W; try discriminate W.
    + replace (s - (nb - 1) + nb) with (s + 1) by lia. rewrite W. f_equal. apply RD. cbn [b2t_rd]. rewrite ptr_eq. apply (touches_at _ i 0); cbn [cols_of fst snd]; lia.
    + replace (s - (nb - 1) + nb) with (s + 1) by lia. rewrite W. f_equal. apply RD. cbn [b2t_rd]. rewrite ptr_eq. apply (touches_at _ i 1); cbn [cols_of fst snd]; lia.
  - destruct l as [z|w|w i|i|i|i j]; try discriminate W; cbn [b2t_wr is_tri uses_worker tri_range tri_last cols_of fst snd negb] in W; rewrite ?andb_false_r in W; try discriminate W; try (exfalso; lia).
    + unfold touches in W. cbn [cols_of fst snd] in W. exfalso. lia.
    + rewrite W. destruct (i =? hh_row nb b s t); apply RD; cbn [b2t_rd uses_worker]; apply Z.eqb_refl.
  - unfold put.
    assert (EV : forall i, m (LVec (worker size b nthreads s) i) = m' (LVec (worker size b nthreads s) i)) by (intros i; apply RD; cbn [b2t_rd uses_worker]; apply Z.eqb_refl).
    assert (ET : m (LTau (worker size b nthreads s)) = m' (LTau (worker size b nthreads s))) by (apply RD; cbn [b2t_rd uses_worker]; apply Z.eqb_refl).
    rewrite ET. pose proof (step_agree s t (m' (LTau (worker size b nthreads s))) _ _ (m_band m) (m_band m') OK EV AG) as (E1 & E2 & E3).
    destruct (do_step _ _ _ _ _ _ _) as [[tau v] B]. destruct (do_step _ _ _ _ _ _ (m_band m')) as [[tau' v'] B']. cbn [fst snd] in *.
    destruct l; try discriminate W; cbn [b2t_wr is_tri uses_worker negb tri_range tri_last fst snd] in W; rewrite ?andb_true_r in W; try (exfalso; lia).
    + apply E3, W. + rewrite W. exact E1. + rewrite W. apply E2.
  - unfold tri_copy. destruct l as [z|w|w j|j|j|j j']; cbn [b2t_wr is_tri uses_worker tri_range tri_last cols_of fst snd negb] in W; rewrite ?andb_false_r in W; try discriminate W; rewrite W; f_equal; apply RD; cbn [b2t_rd]; rewrite ptr_eq.
    + apply (touches_at _ j 0); cbn [cols_of fst snd]; lia.
    + apply (touches_at _ j 1); cbn [cols_of fst snd]; [lia| |lia]. unfold tri_nd, tri_ne in *. lia.
Qed.

(** ** The main theorem *)
Notation P := (b2t lf cplx size nb b nthreads A).
Theorem b2t_all : forall m0, every_execution thread_eq P m0 (fun m => forall l, m l = srun P (b2t_seq cplx size nb b) m0 l).
Proof using Hs Hb Hnb Hdiv Hth LF.
  intros m0.
  assert (CIN : forall a, In a (b2t_seq cplx size nb b) <-> exists t, In t (threads P) /\ In (IAct a) (prog P t)).
  { intros a. rewrite (in_seq cplx size nb b nthreads Hs Hb Hnb Hdiv Hth). split.
    - intros [SZ OK]. destruct (act_at cplx size nb b nthreads Hs Hb Hnb Hdiv Hth a SZ OK) as [It E]. exists (owner a). split; [exact It|]. eapply nth_error_In. exact E.
    - intros (t & It & Ia). apply In_nth_error in Ia as (i & Ei). destruct (act_pos cplx size nb b nthreads Hs Hb Hnb Hdiv Hth t i a It Ei) as (_ & _ & OK).
      split; [|exact OK]. apply (in_threads cplx size nb b nthreads Hs Hb Hnb Hdiv Hth) in It; tauto. }
  assert (ND : NoDup (b2t_seq cplx size nb b)).
  { eapply sorted_nodup; [|apply (seq_sorted cplx size nb b nthreads Hs Hb Hnb Hdiv Hth)]. intros x H. unfold klt in H. destruct (key x) as [[? ?] ?]. lia. }
  assert (OCC := occ cplx size nb b nthreads Hs Hb Hnb Hdiv Hth).
  assert (FR : forall a, In a (b2t_seq cplx size nb b) -> framed P a).
  { intros a Ia m m' RD l W. apply (in_seq cplx size nb b nthreads Hs Hb Hnb Hdiv Hth) in Ia. apply eff_inside; [tauto|exact RD|exact W]. }
  assert (KEY : forall st a b', sreach thread_eq P m0 st -> begun P st b' -> before (b2t_seq cplx size nb b) a b' -> sconflict P a b' -> finished_act P st a).
  { intros st a b' R BG BF C. assert (Ia : In a (b2t_seq cplx size nb b)). { destruct BF as (l1 & l2 & E & _). rewrite E. apply in_or_app. right. left. reflexivity. }
    apply (in_seq cplx size nb b nthreads Hs Hb Hnb Hdiv Hth) in Ia. apply (b2t_key lf cplx size nb b nthreads A Hs Hb Hnb Hdiv Hth m0 st a b' R BG); [tauto| |exact C].
    eapply sorted_before; [|exact BF]. apply (seq_sorted cplx size nb b nthreads Hs Hb Hnb Hdiv Hth). }
  split.
  - intros st R. split; [|split].
    + eapply no_race; eassumption.
    + eapply b2t_progress; eassumption.
    + eapply terminates; [|exact R]. apply (threads_nodup cplx size nb b nthreads Hs Hb Hnb Hdiv Hth).
  - intros st R FN l. eapply final_memory; eassumption.
Qed.
End frame.
