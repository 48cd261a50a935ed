(** * Back transformation of the reduction to band, distributed:
    eigensolver/bt_reduction_to_band/impl.h:253-399 (BackTransformationReductionToBand::call on a grid), with the distributed T
    factor, factorization/qr/t_factor_impl.h:422-466. *)
From Coq Require Import ZArith Lia List Bool.
From Verif Require Import CInt Loop StarField DenseSpec Tiling DenseJobs TileJobs HouseSpec HouseModel MultiJobs Red2BandModel BtRed2BandModel
  DistModel DistMachine DistGrid PanelModel DistInverseModel DistTriModel DistMultModel.
Import ListNotations.
Local Open Scope Z_scope.

(** tiles of mat_v (matrix 0), mat_taus (1; distributed over the process columns only: every process row has its copy), mat_c (2) and
    panelT (3) on rank r *)
Definition rV (r i j : Z) : tid := Tid r 0 i j.
Definition rTau (r k : Z) : tid := Tid r 1 k 0.
Definition rC (r i j : Z) : tid := Tid r 2 i j.
Definition rT (r k : Z) : tid := Tid r 3 k 0.

(** schedule_all_reduce_in_place with MPI_SUM (communication/kernels/internal/all_reduce.h:119-153) *)
Definition all_reduce {K : starfield} (P Q : Z) (c : comm) (t : tid) : cact (mat K) :=
  CAct c SAllReduce (Some t) (Some t) (members P Q c) (fun vs _ => fun i j => fold_right (fun (A : mat K) s => fadd (A i j) s) f0 vs).

Section model.
Context {K : starfield} (kn : kernels K).
Variables P Q : Z.
(** size and tile size of mat_v, band size *)
Variables n mb b : Z.
(** axes of the distributions of mat_v and mat_c *)
Variables DV DC : coord -> Z -> axis.
(** threads for the T factor, on every rank *)
Variable avail_t : Z -> Z.
Notation co := (co Q).
Notation lnt := (lnt Q).
Notation szt := (szt Q).
Notation gl D r c := (t_gl Q D r c).
Notation nx D r c := (t_nx Q D r c).
(** panelsV, panelsW, panelsW2: two workspaces each, used in turn *)
Definition mPV (k : Z) : Z := 4 + par n mb b k.
Definition mPW (k : Z) : Z := 6 + par n mb b k.
Definition mW2 (k : Z) : Z := 8 + par n mb b k.

Section step.
Variables r k : Z.
Notation i0 := (bi0 mb b k).
Notation nr := (bt_refl n mb b k).
Notation jd := (j_diag mb b k).
(** SubPanelView, matrix/views.h:42-56, 130-175: the local row tiles from the one of the first element of the view on; the
    view cuts the rows above the first element off, in the first tile if it is on this rank *)
Definition vsub (l : Z) : Z :=
  if (t_own Q DV r Row i0 =? co Row r) && (l =? nx DV r Row i0) then b_row mb b k mod mb else 0.
(** SubMatrixView, matrix/views.h:94-128 *)
Definition csub (l : Z) : Z :=
  if ((t_own Q DC r Row i0 =? co Row r) || (t_own Q DC r Col 0 =? co Col r)) && (gl DC r Row l =? i0) then b_row mb b k mod mb else 0.
Definition v_rows : list Z := zrange (nx DV r Row i0) (lnt DV r Row).
(** this_rank.col() == k_rank_col, 332-334 *)
Definition on_col : bool := co Col r =? t_own Q DV r Col k.
(** panelV with its links, 335-351 (setRangeStart 320) *)
Definition pV_empty : panel := fresh_panel (mPV k) i0 (ax_nr_tiles (ax Q DV r Row)).
Definition kcol : Z := gl DV r Col (t_loc Q DV r Col k).
Definition pV_linked : panel :=
  if on_col then fold_left (fun p l => if jd (gl DV r Row l) <? nr then p else set_tile p (gl DV r Row l) (rV r (gl DV r Row l) kcol)) v_rows pV_empty
  else pV_empty.
Definition pW_empty : panel := fresh_panel (mPW k) i0 (ax_nr_tiles (ax Q DV r Row)).
Definition pW2_empty : panel := fresh_panel (mW2 k) 0 (ax_nr_tiles (ax Q DC r Col)).
(** copyAndSetHHUpperTiles, 335-345 *)
Definition d_setup_V : list (tjob (mat K)) :=
  flat_map (fun l => let i := gl DV r Row l in
    if jd i <? nr then [TJob [rV r i kcol] (p_int r pV_linked i) (in1 (fun a v => hh_upper (jd i) (szt DV r Row i - vsub l) nr (sub (vsub l) 0 a) v))] else [])
    v_rows.
(** computeTFactor 358 = t_factor_impl.h:422-466: set0_and_return, step_gemv over the local tiles of the panel (the workspaces of
    the other workers are only scratch memory), sum over the process column, copy of the taus and trmv *)
Definition local_tl : tiling := Tiling (Z.of_nat (length v_rows)) (fun x => let l := nx DV r Row i0 + x in szt DV r Row (gl DV r Row l) - vsub l).
Definition d_set0_T : tjob (mat K) := jset0 (rT r k).
Definition d_gemv : tjob (mat K) :=
  TJob (map (fun l => p_tile r pV_linked (gl DV r Row l)) v_rows ++ [rTau r k]) (rT r k) (fun vs T =>
    step_gemv local_tl (avail_t r) nr (nth_tile vs) (col_vec (nth_tile vs (Z.of_nat (length v_rows)))) T).
Definition d_sum_T : list (act (mat K)) := if 1 <? P then [ACom (all_reduce P Q (cm Col (co Col r)) (rT r k))] else [].
Definition d_trmv : tjob (mat K) := TJob [rTau r k] (rT r k) (in1 (fun ta T => copy_diag_and_trmv nr (col_vec ta) T)).
(** trmmPanel, 362-364 *)
Definition d_W : list (tjob (mat K)) :=
  map (fun l => let i := gl DV r Row l in
    TJob [rT r k; p_tile r pV_linked i] (p_int r pW_empty i) (in2 (fun T v _ => trmm kn Right Upper ConjTrans NonUnit (szt DV r Row i - vsub l) nr f1 T v)))
    v_rows.
(** set0(panelW2), 367 *)
Definition d_set0_W2 : list (tjob (mat K)) :=
  map (fun lj => jset0 (p_int r pW2_empty (gl DC r Col lj))) (zrange (nx DC r Col (p_lo pW2_empty)) (nx DC r Col (p_hi pW2_empty))).
(** gemmUpdateW2, 372-375; mat_c_view.iteratorLocal() is column major *)
Definition d_W2 : list (tjob (mat K)) :=
  map (fun l => let i := gl DC r Row (fst l) in let j := gl DC r Col (snd l) in
    TJob [p_tile r pW_empty (gl DV r Row (fst l)); rC r i j] (p_int r pW2_empty j)
      (in2 (fun w c w2 => gemm kn ConjTrans NoTrans nr (szt DC r Col j) (szt DC r Row i - csub (fst l)) f1 w (sub (csub (fst l)) 0 c) f1 w2)))
    (range2d (nx DC r Row i0) (lnt DC r Row) 0 (lnt DC r Col)).
(** 377-382 *)
Definition d_sum_W2 : list (act (mat K)) :=
  if 1 <? P then flat_map (fun lj => [ACom (all_reduce P Q (cm Col (co Col r)) (p_int r pW2_empty (gl DC r Col lj)))])
    (zrange (nx DC r Col (p_lo pW2_empty)) (nx DC r Col (p_hi pW2_empty))) else [].
(** gemmTrailingMatrix, 387-390 *)
Definition d_update : list (tjob (mat K)) :=
  map (fun l => let i := gl DC r Row (fst l) in let j := gl DC r Col (snd l) in
    TJob [p_tile r pV_linked (gl DV r Row (fst l)); p_tile r pW2_empty j] (rC r i j)
      (in2 (fun v w2 c => paste (csub (fst l)) 0 (szt DC r Row i - csub (fst l)) (szt DC r Col j) c
        (gemm kn NoTrans NoTrans (szt DC r Row i - csub (fst l)) (szt DC r Col j) nr (fopp f1) v w2 f1 (sub (csub (fst l)) 0 c)))))
    (range2d (nx DC r Row i0) (lnt DC r Row) 0 (lnt DC r Col)).
(** one iteration, 305-397 *)
Definition dbt_step : list (act (mat K)) :=
  (if on_col then map ALoc (d_setup_V ++ [d_set0_T] ++ [d_gemv]) ++ d_sum_T ++ map ALoc ([d_trmv] ++ d_W) else []) ++
  map ALoc d_set0_W2 ++
  panel_broadcast P Q DV Row r (t_own Q DV r Col k) pW_empty ++
  map ALoc d_W2 ++ d_sum_W2 ++
  panel_broadcast P Q DV Row r (t_own Q DV r Col k) pV_linked ++
  map ALoc d_update.
End step.

(** 253-399; the tile rows of mat_c are counted with dist_c *)
Definition dist_bt_red2band (r : Z) : list (act (mat K)) :=
  if (ax_nr_tiles (ax Q DC r Row) =? 0) || (ax_nr_tiles (ax Q DC r Col) =? 0) then [] else
  if bt_nrefls n b <=? 0 then [] else flat_map (dbt_step r) (rev (zrange 0 (bt_nblocks n mb b))).
End model.
