(** * From phases to statements about distributed square matrices. *)
From Coq Require Import ZArith Lia List Bool.
From Verif Require Import CInt Loop StarField DenseSpec Tiling DenseJobs TileJobs DistModel DistSpec DistBuilt DistThms DistCtor DistMachine DistGrid PanelModel PanelProofs Properties_Panel DistMat DistProg DistPhase.
Import ListNotations.
Local Open Scope Z_scope.

Section lift.
Context {K : starfield}.
Variables (P Q N NB : Z) (src : pair_Z) (D : coord -> Z -> axis).
Hypothesis DD : distributed P Q (N, N) (NB, NB) (NB, NB) src (0, 0) D.
Notation t := (dtil N NB).
Notation Ls := (arg_layout (N, N) (NB, NB) (NB, NB) (P, Q) src (0, 0)).
(** the local store with the content of the distributed one *)
Definition lift_st (st : tstore (mat K)) : tstore (mat K) := fun x => st (Tid (drank P Q src (t_row x) (t_col x)) (t_mat x) (t_row x) (t_col x)).
Lemma sq_pos : 0 <= N /\ 0 < NB.
Proof using DD. destruct (da_arg _ _ _ _ _ _ DD Row) as (HN & HB & _). auto. Qed.
Lemma sq_ok : tiling_ok t. Proof using DD. destruct sq_pos. apply dt_ok; assumption. Qed.
Lemma sq_size : tl_size t = N. Proof using DD. destruct sq_pos. apply dt_size; assumption. Qed.
Lemma sq_gather : forall m st x y, 0 <= x < N -> 0 <= y < N -> gather t t (fun i j => lift_st st (Tid 0 m i j)) x y = dmat P Q (NB, NB) src m st x y.
Proof using DD. intros m st x y Lx Ly. destruct sq_pos as [_ HB]. rewrite gather_div by assumption. reflexivity. Qed.
Lemma sq_nt : forall rc : coord, (fun rc => ax_nr_tiles (D rc 0)) rc = tl_n t.
Proof using DD. intros rc. cbv beta. rewrite (da_nt _ _ _ _ _ _ DD). destruct rc; reflexivity. Qed.
Lemma sq_sz : forall r rc k, In r (ranks P Q) -> 0 <= k < tl_n t -> ax_global_tile_size_of (ax Q D r rc) k = tl_sz t k.
Proof using DD. intros r rc k R Lk. rewrite (da_sz _ _ _ _ _ _ DD) by exact R. destruct rc; reflexivity. Qed.
Theorem sq_lift : forall nm prog lp st0 (QP : tstore (mat K) -> Prop), phase P Q Ls nm [] [] prog lp ->
  (forall st, (forall m x y, 0 <= m < nm -> 0 <= x < N -> 0 <= y < N -> dmat P Q (NB, NB) src m st x y = gather t t (fun i j => trun lp (lift_st st0) (Tid 0 m i j)) x y) -> QP st) ->
  every_run (members P Q) (ranks P Q) prog st0 QP.
Proof using DD.
  intros nm prog lp st0 QP PH H. apply (ph_run P Q Ls nm prog lp st0 (lift_st st0) QP PH).
  - intros x _. unfold lift_st, place, at_, owT. rewrite (da_rank P Q (N, N) (NB, NB) src D DD). reflexivity.
  - intros st R. apply H. intros m x y Lm Lx Ly. destruct sq_pos as [_ HB]. rewrite gather_div by assumption. unfold dmat. cbn [fst snd].
    rewrite <- (R (Tid 0 m (x / NB) (y / NB))) by (split; [reflexivity|exact Lm]). unfold place, at_, owT. cbn [t_row t_col t_mat]. rewrite (da_rank P Q (N, N) (NB, NB) src D DD). reflexivity.
Qed.
End lift.
