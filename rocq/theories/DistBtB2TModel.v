(** * Back transformation of the reduction of a band matrix to tridiagonal form, distributed:
    eigensolver/bt_band_to_tridiag/impl.h:324-503 (TileAccessHelper, DistIndexing), 505-530 (HHManager), 737-1031
    (BackTransformationT2B::call on a grid, Backend::MC), as the tasks and MPI calls every rank submits. *)
From Coq Require Import ZArith Lia List Bool.
From Verif Require Import CInt Loop StarField DenseSpec Tiling DenseJobs TileJobs HouseSpec HouseModel MultiJobs Red2BandModel BtB2TModel
  DistModel DistMachine DistGrid PanelModel DistTriModel.
Import ListNotations.
Local Open Scope Z_scope.

(** tiles of mat_hh (matrix 0), and of mat_e seen through its retiling (1; 760-761) on rank r *)
Definition bHH (r i j : Z) : tid := Tid r 0 i j.
Definition bE (r i j : Z) : tid := Tid r 1 i j.

Section model.
Context {K : starfield} (kn : kernels K) (larft : @larft_fn K).
Variable cplx : bool.
Variables P Q : Z.
(** size of mat_hh; tile size of mat_hh; band size; bt_band_to_tridiag_hh_apply_group_size *)
Variables m mb b g : Z.
(** axes of the distributions of mat_hh and of the retiled mat_e *)
Variables DH DE : coord -> Z -> axis.
Notation co := (co Q).
Notation lnt := (lnt Q).
Notation szt := (szt Q).
Notation jl := (j_last cplx m b).

(** 795-806: the panels, two workspaces each, used in turn: one for every k (847-852) *)
Definition w_par (k : Z) : Z := (jl - k) mod 2.
Definition bPH (r k x : Z) : tid := Tid r (2 + w_par k) x 0.
Definition bV (r k x : Z) : tid := Tid r (4 + w_par k) x 0.
Definition bT (r k x : Z) : tid := Tid r (6 + w_par k) x 0.
Definition bW (r k x : Z) : tid := Tid r (8 + w_par k) x 0.
(** w2_panels, w2tmp_panels are row panels: the row of the index is not used (panel.h:425-443) *)
Definition bW2 (r k je : Z) : tid := Tid r (10 + w_par k) 0 je.
Definition bW2t (r k je : Z) : tid := Tid r (12 + w_par k) 0 je.

Section block.
Variables r k i j : Z.
(** 857-862: step_b, ij_el, ij_g, rankHH *)
Definition d_step : Z := i - j.
Definition d_ti : Z := ax_global_tile_from_global_element (ax Q DH r Row) (i * b).
Definition d_tj : Z := ax_global_tile_from_global_element (ax Q DH r Col) (j * b).
Definition hh_row : Z := t_own Q DH r Row d_ti.
Definition hh_col : Z := t_own Q DH r Col d_tj.
(** 866-872 *)
Definition d_nrefls : Z := t_nrefls cplx m b j d_step.
(** TileAccessHelper, 325-369: input_spec_ (origin and rows; t_hh_rows), rows_v_ (t_rows_v), rows_v_top_, index_e_, across_tiles_, across_ranks_ *)
Definition d_oi : Z := ax_tile_element_from_global_element (ax Q DH r Row) (i * b).
Definition d_oj : Z := ax_tile_element_from_global_element (ax Q DH r Col) (j * b).
Definition d_hr : Z := Z.min b (ax_size (ax Q DH r Row) - i * b).
Definition d_hc : Z := Z.min b (ax_size (ax Q DH r Col) - j * b).
Definition d_rows : Z := Z.min (2 * b) (ax_size (ax Q DE r Row) - i * b) - 1.
Definition d_top : Z := Z.min d_rows (b - 1).
Definition d_ie : Z := ax_global_tile_from_global_element (ax Q DE r Row) (i * b).
Definition d_tiles : bool := negb (d_ie =? ax_nr_tiles (ax Q DE r Row) - 1).
Definition d_ranks : bool := d_tiles && negb (t_own Q DE r Row d_ie =? t_own Q DE r Row (d_ie + 1)).
(** DistIndexing: rankRowPartner (459-461), isInvolved (463-467), n_ws_per_block (456; the ceiling of a floating point number), wsIndexHH (469-487) *)
Definition d_bot : Z := (hh_row + 1) mod P.
Definition involved : bool := (co Row r =? hh_row) || ((co Row r =? d_bot) && d_ranks).
Definition n_ws : Z := ceil_div (mb / b) 2 + 1.
Definition ws_index : Z :=
  if co Row r =? hh_row then t_loc Q DH r Row d_ti * n_ws + (1 + (i mod (mb / b)) / 2)
  else if (lnt DH r Row =? 0) || (lnt DH r Col =? 0) then 0 else t_loc Q DH r Row (d_ti + 1) * n_ws.
Notation ph := (bPH r k ws_index).
Notation v := (bV r k ws_index).
Notation t := (bT r k ws_index).
Notation w := (bW r k ws_index).
(** the compact reflectors on this rank (926-929): the tile, and the origin of the sub-tile *)
Definition hh_own : bool := (co Row r =? hh_row) && (co Col r =? hh_col).
Definition hh_tile : tid := if hh_own then bHH r d_ti d_tj else ph.
Definition hh_oi : Z := if hh_own then d_oi else 0.
Definition hh_oj : Z := if hh_own then d_oj else 0.

(** 892-903: broadcast along the row. Simplification: what is sent is the whole tile, of which the receiver stores the sub-tile *)
Definition hh_root : Z := rk Q hh_row hh_col.
Definition c_bcast : cact (mat K) :=
  if co Col r =? hh_col then bsend (CRow hh_row) hh_root (bHH r d_ti d_tj)
  else CAct (CRow hh_row) (SBcast hh_root) None (Some ph) [hh_root] (fun vs x => paste 0 0 d_hr d_hc x (sub d_oi d_oj (hd x vs))).
Definition d_bcast : list (act (mat K)) := if (1 <? Q) && (co Row r =? hh_row) then [ACom c_bcast] else [].
(** 911-925: message to the row below. Same simplification; the sender has the reflectors in a tile of mat_hh if it is in the
    process column of rankHH. The receiver expects a whole tile of the panel, b x b *)
Definition rk_top : Z := rk Q hh_row (co Col r).
Definition rk_bot : Z := rk Q d_bot (co Col r).
Definition c_send : cact (mat K) :=
  if co Row r =? hh_row then CAct (CMsg rk_top rk_bot) SMessage (Some hh_tile) None [] (fun _ x => x)
  else
    let oi := if co Col r =? hh_col then d_oi else 0 in let oj := if co Col r =? hh_col then d_oj else 0 in
    CAct (CMsg rk_top rk_bot) SMessage None (Some ph) [rk_top] (fun vs x => paste 0 0 b b x (sub oi oj (hd x vs))).
Definition d_send : list (act (mat K)) := if d_ranks && ((co Row r =? hh_row) || (co Row r =? d_bot)) then [ACom c_send] else [].
(** 929 *)
Definition d_group : Z := if d_ranks then b else g.
(** 932-939 (HHManager::computeVW, 509-526; BtB2TModel.t_compute). Simplification: the code runs one task that writes the three tiles *)
Definition d_compute : list (tjob (mat K)) :=
  [TJob [hh_tile] v (in1 (fun hh x => setup_v b d_rows d_nrefls d_hr (sub hh_oi hh_oj hh) x));
   TJob [hh_tile; v] t (in2 (fun hh y x => compute_t larft b d_rows d_nrefls d_group (sub hh_oi hh_oj hh) y x));
   TJob [v; t] w (in2 (fun y z x => compute_w kn b d_rows d_nrefls d_group y z x))].

Section column.
(** 942-947: local index of the tile column, global index, number of columns *)
Variable je : Z.
Definition d_jg : Z := t_gl Q DE r Col je.
Definition d_cols : Z := szt DE r Col d_jg.
Notation w2 := (bW2 r k je).
Notation w2t := (bW2t r k je).
Notation et := (bE r d_ie d_jg).
Notation eb := (bE r (d_ie + 1) d_jg).
(** ApplyHHToSingleTileRow (158-200, 949-957): the calls of gemm. Simplification, here and below: the code runs them in one task *)
Definition a_single : list (tjob (mat K)) :=
  flat_map (fun x => let jb := group_jb d_nrefls d_group x in let ib := d_rows - x in
    [TJob [v; et] w2 (in2 (fun y e z => paste 0 0 jb d_cols z (gemm kn ConjTrans NoTrans jb d_cols ib f1 (sub x x y) (sub (x + 1) 0 e) f0 z)));
     TJob [w; w2] et (in2 (fun y z e => paste (x + 1) 0 ib d_cols e (gemm kn NoTrans NoTrans ib d_cols jb (fopp f1) (sub x x y) z f1 (sub (x + 1) 0 e))))])
    (rev (group_cols d_nrefls d_group)).
(** ApplyHHToDoubleTileRow (229-289, 964-972): top, bot are the numbers of rows of the tiles *)
Definition a_double : list (tjob (mat K)) :=
  let top := szt DE r Row d_ie in let bot := szt DE r Row (d_ie + 1) in
  flat_map (fun x => let jb := group_jb d_nrefls d_group x in let it := top - (x + 1) in let ibt := Z.min bot (x + jb) in
    [TJob [v; et] w2 (in2 (fun y e z => paste 0 0 jb d_cols z (gemm kn ConjTrans NoTrans jb d_cols it f1 (sub x x y) (sub (x + 1) 0 e) f0 z)));
     TJob [v; eb] w2 (in2 (fun y e z => paste 0 0 jb d_cols z (gemm kn ConjTrans NoTrans jb d_cols ibt f1 (sub (top - 1) x y) e f1 z)));
     TJob [w; w2] et (in2 (fun y z e => paste (x + 1) 0 it d_cols e (gemm kn NoTrans NoTrans it d_cols jb (fopp f1) (sub x x y) z f1 (sub (x + 1) 0 e))));
     TJob [w; w2] eb (in2 (fun y z e => paste 0 0 ibt d_cols e (gemm kn NoTrans NoTrans ibt d_cols jb (fopp f1) (sub (top - 1) x y) z f1 e)))])
    (rev (group_cols d_nrefls d_group)).
(** two ranks (976-1018) *)
Definition is_top : bool := co Row r =? hh_row.
(** the channel: the two ranks and the tag (980). schedule_sum_p2p (communication/kernels/p2p_allsum.h:38-62): both ranks send, receive and add.
    The communicator is shared (1007): no order between calls but the one of the tiles *)
Definition d_tag : Z := je + i * lnt DE r Col.
Definition d_chan : comm := CP2P rk_top rk_bot d_tag.
Definition d_mate : Z := if is_top then rk_bot else rk_top.
(** specHH(is_top_rank) (400-405): origin, rows *)
Definition s_o : Z := if is_top then 0 else d_top.
Definition s_n : Z := if is_top then d_top else d_rows - d_top.
(** 984-987 *)
Definition d_e : tid := if is_top then et else eb.
Definition e_o : Z := if is_top then 1 else 0.
Definition e_n : Z := szt DE r Row (if is_top then d_ie else d_ie + 1) - e_o.
(** 993-999: gemm checks that the sizes agree (asserted in the code, proved in DistBtB2TProofs): k is the number of rows of subtile_v *)
Definition a_w2 : tjob (mat K) :=
  TJob [v; d_e] w2t (in2 (fun y e z => paste 0 0 d_nrefls d_cols z (gemm kn ConjTrans NoTrans d_nrefls d_cols s_n f1 (sub s_o 0 y) (sub e_o 0 e) f0 z))).
(** 1002-1005: w2 receives the part of the other rank, and the own one is added. The task of the addition reads the own part again *)
Definition c_sum : cact (mat K) := CAct d_chan SMessage (Some w2t) (Some w2) [d_mate] (fun vs z => paste 0 0 d_nrefls d_cols z (hd z vs)).
Definition a_add : tjob (mat K) := TJob [w2t] w2 (in1 (fun y z => paste 0 0 d_nrefls d_cols z (fun p q => fadd (z p q) (fmul f1 (y p q))))).
(** 1007-1016 *)
Definition a_e : tjob (mat K) :=
  TJob [w; w2] d_e (in2 (fun y z e => paste e_o 0 e_n d_cols e (gemm kn NoTrans NoTrans e_n d_cols d_nrefls (fopp f1) (sub s_o 0 y) z f1 (sub e_o 0 e)))).
Definition a_two : list (act (mat K)) := [ALoc a_w2; ACom c_sum; ALoc a_add; ALoc a_e].
Definition a_column : list (act (mat K)) :=
  if negb d_tiles then map ALoc a_single else if negb d_ranks then map ALoc a_double else a_two.
End column.

(** 874-1019: the block on this rank. 905-908: no column of E *)
Definition d_block : list (act (mat K)) :=
  if involved then
    d_bcast ++ (if lnt DE r Col =? 0 then [] else d_send ++ map ALoc d_compute ++ flat_map a_column (zrange 0 (lnt DE r Col)))
  else [].
End block.

(** 854-855: for (i_b = |k|, j_b = max(0, k); i_b < j_b + steps(j_b b); i_b += 2, ++j_b): the pairs (i_b, j_b); at most fuel of them *)
Fixpoint epoch_from (fuel : nat) (i j : Z) : list (Z * Z) :=
  match fuel with
  | O => []
  | S f => if i <? j + t_steps m b (j * b) then (i, j) :: epoch_from f (i + 2) (j + 1) else []
  end.
Definition epoch (k : Z) : list (Z * Z) := epoch_from (Z.to_nat m) (Z.abs k) (Z.max 0 k).
(** 846: for (k = idx_last_sweep_b; k > -maxsteps_b; --k) *)
Definition epochs : list Z := rev (zrange (1 - t_steps m b 0) (jl + 1)).
(** 750-755, 846-1029 *)
Definition dist_bt_b2t (r : Z) : list (act (mat K)) :=
  if (ax_size (ax Q DH r Row) =? 0) || (ax_size (ax Q DE r Col) =? 0) then [] else
  if t_sweeps cplx m =? 0 then [] else
  flat_map (fun k => flat_map (fun ij => d_block r k (fst ij) (snd ij)) (epoch k)) epochs.
End model.
