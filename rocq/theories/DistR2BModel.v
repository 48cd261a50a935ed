(** * Reduction to band form, distributed: eigensolver/reduction_to_band/impl.h:576-862, 1148-1518
    (ReductionToBand::call on a grid, Backend::MC). *)
From Coq Require Import ZArith Lia List Bool.
From Verif Require Import CInt Loop StarField DenseSpec Tiling DenseJobs TileJobs HouseSpec HouseModel MultiJobs Red2BandModel
  DistModel DistMachine DistGrid PanelModel DistLocal DistInverseModel DistTriModel DistMultModel DistBtR2BModel.
Import ListNotations.
Local Open Scope Z_scope.

(** tiles of mat_a (matrix 0), of mat_taus retiled by the band size (1; distributed over the process columns only: every process row has
    its copy; 1214-1215) and T (14, fresh at every step; w2 is the same tile, 1369) on rank r *)
Definition qA (r i j : Z) : tid := Tid r 0 i j.
Definition qTau (r j : Z) : tid := Tid r 1 j 0.
Definition qT (r j : Z) : tid := Tid r 14 j 0.
(** local variables of the panel task: x0_and_squares, the vectors w of the threads, y; the value on which the task branches; what the
    trigger has waited for *)
Definition qXs (r j : Z) : tid := Tid r 15 j 0.
Definition qW (r j k : Z) : tid := Tid r 16 j k.
Definition qY (r j : Z) : tid := Tid r 17 j 0.
Definition qBr (r j c : Z) : tid := Tid r 18 j c.
Definition qTrig (r j : Z) : tid := Tid r 19 j 0.

Section model.
Context {K : starfield} (kn : kernels K) (rs : roots K).
Variables P Q : Z.
(** matrix size, tile size (square tiles), band size *)
Variables n mb b : Z.
(** axes of the distribution of mat_a *)
Variable D : coord -> Z -> axis.
(** configuration of every rank: number of threads for the panel and for the T factor *)
Variables avail minwork avail_t : Z -> Z.
(** the branches taken by the ranks in the panel task: rank, panel, reflector. Which ones are taken is decided by the data (653): the
    task records the value it branches on (qBr), and a program is one of the code only if the branches agree with what it records *)
Variable dec : Z -> Z -> Z -> bool.
Notation co := (co Q).
Notation lnt := (lnt Q).
Notation szt := (szt Q).
Notation gl r c := (t_gl Q D r c).
Notation nx r c := (t_nx Q D r c).
Notation own r c := (t_own Q D r c).
Notation nrt := (r2b_nrt n mb).
(** the panels; two workspaces each, used in turn (1223-1234) *)
Definition mV (j : Z) : Z := 2 + j mod 2.
Definition mW (j : Z) : Z := 4 + j mod 2.
Definition mX (j : Z) : Z := 6 + j mod 2.
Definition mVt (j : Z) : Z := 8 + j mod 2.
Definition mWt (j : Z) : Z := 10 + j mod 2.
Definition mXt (j : Z) : Z := 12 + j mod 2.

Section step.
Variables r j : Z.
Notation i0 := (i0 mb b j).
Notation j0 := (j0 mb b j).
Notation cj := (cj mb b j).
Notation e_row := (e_row b j).
Notation nr := (n_refl n b j).
Notation pcols := (pcols n mb b j).
(** rank_v0 (1266-1269), is_panel_rank_col (1271), has_reflector_head *)
Definition v0_row : Z := own r Row i0.
Definition v0_col : Z := own r Col j0.
Definition on_panel : bool := v0_col =? co Col r.
Definition head : bool := v0_row =? co Row r.
(** SubPanelView (1295): the local row tiles from the one of the first element on; the view cuts the rows above off *)
Definition q_rows : list Z := zrange (nx r Row i0) (lnt D r Row).
Definition psub (l : Z) : Z := if head && (l =? nx r Row i0) then e_row mod mb else 0.
Definition jcol : Z := gl r Col (nx r Col j0).
Definition atile (l : Z) : tid := qA r (gl r Row l) jcol.
Definition prows (l : Z) : Z := szt D r Row (gl r Row l) - psub l.
(** the tiles of the panel task: a vector, indexed from 0 *)
Definition l0 : Z := nx r Row i0.
Definition ltl : tiling := Tiling (Z.of_nat (length q_rows)) (fun x => prows (l0 + x)).
Definition lpanel (vs : list (mat K)) : HouseModel.panel := fun x => sub (psub (l0 + x)) cj (nth_tile vs x).
Definition tiles : list Z := zrange 0 (Z.of_nat (length q_rows)).
Definition ptile (x : Z) : tid := atile (l0 + x).
Definition in_tile (x : Z) (a s : mat K) : mat K := paste (psub (l0 + x)) cj (prows (l0 + x)) pcols a s.

(** ** 578-697 computePanelReflectors. comm::sync::allReduceInPlace on the communicator of mpi_col_chain_panel *)
Definition pcomm : comm := CCol2 (co Col r).
(** the workers, 596-602, 616 *)
Definition nw : Z := panel_nworkers ltl (avail r) (minwork r).
Definition batch : Z := ceil_div (tl_n ltl) nw.
(** x0_and_squares, as a tile with two entries *)
Definition mk_xs (xs : F K * F K) : mat K := fun p _ => if p =? 0 then fst xs else snd xs.
Definition get_xs (a : mat K) : F K * F K := (a 0 0, a 1 0).
Section reflector.
Variable c : Z.
(** STEP1 (629-650): worker 0. Simplification: reflector_and_tau, that the code calls once, is one task for tau, one for every tile; the part
    for a tile depends on this tile only *)
Definition p_x0sq : tjob (mat K) := TJob (qTrig r j :: map ptile tiles) (qXs r j) (fun vs _ => mk_xs (x0_and_squares ltl head (lpanel (tl vs)) c)).
Definition p_tau : tjob (mat K) := TJob [qXs r j] (qTau r j) (in1 (fun xs ta => fun p q =>
  if (p =? c) && (q =? 0) then snd (reflector_and_tau rs ltl head (fun _ => zero_mat) c (get_xs xs)) else ta p q)).
Definition p_refl : list (tjob (mat K)) := map (fun x => TJob [qXs r j] (ptile x) (in1 (fun xs a =>
  in_tile x a (fst (reflector_and_tau rs ltl head (fun _ => sub (psub (l0 + x)) cj a) c (get_xs xs)) x)))) tiles.
(** 653: the branch *)
Definition p_branch : tjob (mat K) := TJob [qTau r j] (qBr r j c) (in1 (fun ta _ => fun _ _ => ta c 0)).
(** 666-673: the head of the reflector, on the rank that has it *)
Definition p_head : list (tjob (mat K)) := if head then
  [TJob [ptile 0] (qY r j) (in1 (fun a _ => fun _ _ => sub (psub l0) cj a c c));
   TJob [] (ptile 0) (fun _ a => in_tile 0 a (mset (sub (psub l0) cj a) c c f1))] else [].
(** STEP2a (676-677); simplification: every worker reads all the tiles, and uses those of its range *)
Definition p_w : list (tjob (mat K)) := map (fun k => TJob (map ptile tiles) (qW r j k) (fun vs _ => fun q _ =>
  w_trailing ltl (head && (k =? 0)) (lpanel vs) c (w_begin batch k) (w_end ltl batch k) (fun _ => f0) q)) (zrange 0 nw).
(** STEP2b (682-683) *)
Definition p_wred : tjob (mat K) := TJob (map (qW r j) (zrange 1 nw)) (qW r j 0) (fun vs w0 => fun q _ =>
  reduce_vectors nw (fun k => if k =? 0 then col_vec w0 else col_vec (nth_tile vs (k - 1))) q).
(** STEP3 (688) *)
Definition p_upd : list (tjob (mat K)) := flat_map (fun k => map (fun x => TJob [qTau r j; qW r j 0] (ptile x) (in2 (fun ta w a =>
  in_tile x a (update_trailing ltl (head && (k =? 0)) b c (col_vec w) (ta c 0) x (x + 1) (fun _ => sub (psub (l0 + x)) cj a) x))))
  (zrange (w_begin batch k) (w_end ltl batch k))) (zrange 0 nw).
(** 690-693 *)
Definition p_restore : list (tjob (mat K)) := if head then
  [TJob [qY r j] (ptile 0) (in1 (fun y a => in_tile 0 a (mset (sub (psub l0) cj a) c c (y 0 0))))] else [].
(** one reflector, 626-696. The loop is left for good (656-658) only after the last reflector: there are at most b of them *)
Definition p_step : list (act (mat K)) :=
  [ALoc p_x0sq] ++ [ACom (all_reduce P Q pcomm (qXs r j))] ++ map ALoc ([p_tau] ++ p_refl ++ [p_branch]) ++
  (if dec r j c && (0 <? b - (c + 1)) then
     map ALoc (p_head ++ p_w ++ [p_wred]) ++ [ACom (all_reduce P Q pcomm (qW r j 0))] ++ map ALoc (p_upd ++ p_restore) else []).
End reflector.
Definition p_panel : list (act (mat K)) := flat_map p_step (zrange 0 nr).

(** ** Panels V, W, X and the transposed ones *)
Definition fullb : bool := full_band mb b.
Definition pV_empty : panel := fresh_panel (mV j) i0 (ax_nr_tiles (ax Q D r Row)).
(** setupReflectorPanelV, 352-410, called at 1305, on the process column of the panel: links to mat_a if the band has the size of the tiles *)
Definition tl_rows : list Z := if head then match q_rows with [] => [] | _ :: l => l end else q_rows.
Definition pV_linked : panel :=
  if on_panel && fullb then fold_left (fun p l => set_tile p (gl r Row l) (atile l)) tl_rows pV_empty else pV_empty.
Definition q_setup_V : list (tjob (mat K)) :=
  (if head then
     [TJob [atile l0] (p_int r pV_linked (gl r Row l0)) (in1 (fun a v => paste 0 0 (prows l0) (Z.min nr pcols) v (sub (psub l0) cj a)));
      TJob [] (p_int r pV_linked (gl r Row l0)) (fun _ v => fun p q =>
        if (0 <=? p) && (p <? prows l0) && (0 <=? q) && (q <? nr) then if p =? q then f1 else if p <? q then f0 else v p q else v p q)]
   else []) ++
  flat_map (fun l => if fullb then [] else
    [TJob [atile l] (p_int r pV_linked (gl r Row l)) (in1 (fun a v => paste 0 0 (prows l) pcols v (sub (psub l) cj a)))]) tl_rows.
(** computeTFactor (1308-1309) = factorization/qr/t_factor_impl.h:422-466 *)
Definition q_set0_T : tjob (mat K) := jset0 (qT r j).
Definition q_gemv : tjob (mat K) :=
  TJob (map (fun l => p_tile r pV_linked (gl r Row l)) q_rows ++ [qTau r j]) (qT r j) (fun vs T =>
    step_gemv ltl (avail_t r) nr (nth_tile vs) (col_vec (nth_tile vs (Z.of_nat (length q_rows)))) T).
Definition q_sum_T : list (act (mat K)) := if 1 <? P then [ACom (all_reduce P Q (cm Col (co Col r)) (qT r j))] else [].
Definition q_trmv : tjob (mat K) := TJob [qTau r j] (qT r j) (in1 (fun ta T => copy_diag_and_trmv nr (col_vec ta) T)).
(** set_range_panelT, 1236-1246: up to the last tile but one *)
Definition pT_fresh (id : Z) : panel :=
  if i0 =? ax_nr_tiles (ax Q D r Row) - 1 then fresh_panel id i0 i0 else fresh_panel id i0 (ax_nr_tiles (ax Q D r Row) - 1).
Definition bcV : list (act (mat K)) * panel := panel_broadcast2 P Q D Row r v0_col pV_linked (pT_fresh (mVt j)).
Definition pVt : panel := snd bcV.
Definition pW_empty : panel := fresh_panel (mW j) i0 (ax_nr_tiles (ax Q D r Row)).
(** trmmComputeW, 1333-1334 *)
Definition q_W : list (tjob (mat K)) :=
  map (fun l => let i := gl r Row l in
    TJob [qT r j; p_tile r pV_linked i] (p_int r pW_empty i) (in2 (fun T v _ => trmm kn Right Upper NoTrans NonUnit (prows l) nr f1 T v))) q_rows.
Definition bcW : list (act (mat K)) * panel := panel_broadcast2 P Q D Row r v0_col pW_empty (pT_fresh (mWt j)).
Definition pWt : panel := snd bcW.
(** ** 700-816 hemmComputeX *)
Definition pX_empty : panel := fresh_panel (mX j) i0 (ax_nr_tiles (ax Q D r Row)).
Definition pXt_work : panel := pT_fresh (mXt j).
Definition q_set0_X : list (tjob (mat K)) := map (fun l => jset0 (p_int r pX_empty (gl r Row l))) q_rows.
Definition xt_cols : list Z := zrange (nx r Col (p_lo pXt_work)) (nx r Col (p_hi pXt_work)).
Definition q_set0_Xt : list (tjob (mat K)) := map (fun l => jset0 (p_int r pXt_work (gl r Col l))) xt_cols.
(** SubMatrixView of the trailing matrix (1319) *)
Definition has_sub : bool := (own r Row i0 =? co Row r) || (own r Col i0 =? co Col r).
Definition msub (rc : coord) (l : Z) : Z := if has_sub && (gl r rc l =? i0) then e_row mod mb else 0.
Definition msz (rc : coord) (l : Z) : Z := szt D r rc (gl r rc l) - msub rc l.
Definition limit (l : Z) : Z := nx r Col (gl r Row l + 1).
Definition q_X : list (tjob (mat K)) :=
  flat_map (fun li => for_down (limit li - 1) (nx r Col i0) (fun lk =>
    let i := gl r Row li in let k := gl r Col lk in
    if i =? k then [TJob [qA r i k; p_tile r pW_empty i] (p_int r pX_empty i)
      (in2 (fun a w x => hemm kn Left Lower (msz Row li) nr f1 (sub (msub Row li) (msub Col lk) a) w f1 x))]
    else [TJob [qA r i k; p_tile r pWt k] (p_int r pX_empty i)
            (in2 (fun a w x => gemm kn NoTrans NoTrans (msz Row li) nr (msz Col lk) f1 (sub (msub Row li) (msub Col lk) a) w f1 x));
          TJob [qA r i k; p_tile r pW_empty i]
            (if co Row r =? own r Row k then p_int r pX_empty (gl r Row (t_loc Q D r Row k)) else p_int r pXt_work k)
            (in2 (fun a w x => gemm kn ConjTrans NoTrans (msz Col lk) nr (msz Row li) f1 (sub (msub Row li) (msub Col lk) a) w f1 x))]))
    q_rows.
(** 775-799 *)
Definition q_red_col : list (act (mat K)) :=
  if 1 <? P then flat_map (fun lk => let k := gl r Col lk in let ow := own r Row k in
    [ACom (if ow =? co Row r then rrecv P Q (cm Col (co Col r)) (mk Q Col (co Col r) ow) (p_int r pX_empty (gl r Row (t_loc Q D r Row k)))
           else rsend (cm Col (co Col r)) (mk Q Col (co Col r) ow) (p_int r pXt_work k))]) xt_cols else [].
(** 803-815 *)
Definition q_red_row : list (act (mat K)) :=
  if 1 <? Q then flat_map (fun l => let i := gl r Row l in
    [ACom (if v0_col =? co Col r then rrecv P Q (cm Row (co Row r)) (mk Q Row (co Row r) v0_col) (p_int r pX_empty i)
           else rsend (cm Row (co Row r)) (mk Q Row (co Row r) v0_col) (p_int r pX_empty i))]) q_rows else [].
(** gemmComputeW2, 1371, with the sum over the process column 1372-1375 *)
Definition q_W2 : list (tjob (mat K)) :=
  jset0 (qT r j) :: map (fun l => jgemm kn ConjTrans NoTrans nr nr (prows l) f1 (p_tile r pW_empty (gl r Row l)) (p_tile r pX_empty (gl r Row l)) f1 (qT r j)) q_rows.
(** gemmUpdateX, 1377 *)
Definition q_updX : list (tjob (mat K)) :=
  map (fun l => jgemm kn NoTrans NoTrans (prows l) nr nr (fopp fhalf) (p_tile r pV_linked (gl r Row l)) (qT r j) f1 (p_int r pX_empty (gl r Row l))) q_rows.
(** 1380-1401 *)
Definition pXt_fresh : panel :=
  if i0 =? ax_nr_tiles (ax Q D r Row) - 1 then fresh_panel (mXt j) i0 (ax_nr_tiles (ax Q D r Row)) else pT_fresh (mXt j).
Definition bcX : list (act (mat K)) * panel := panel_broadcast2 P Q D Row r v0_col pX_empty pXt_fresh.
Definition pXt : panel := snd bcX.
(** 1446-1471: the next panel waits for the first tile of xt *)
Definition next_col : Z := if j0 =? e_row / mb then v0_col else (v0_col + 1) mod Q.
Definition q_trigger : list (tjob (mat K)) :=
  if co Col r =? next_col then [TJob [p_tile r pXt (gl r Col (nx r Col i0))] (qTrig r (j + 1)) (fun _ v => v)] else [].
(** 818-860 her2kUpdateTrailingMatrix *)
Definition q_update : list (tjob (mat K)) :=
  flat_map (fun li => flat_map (fun lk =>
    let i := gl r Row li in let k := gl r Col lk in
    if i =? k then [TJob [p_tile r pV_linked i; p_tile r pX_empty i] (qA r i k) (in2 (fun v x a =>
      paste (msub Row li) (msub Col lk) (msz Row li) (msz Col lk) a (her2k kn Lower NoTrans (msz Row li) nr (fopp f1) v x f1 (sub (msub Row li) (msub Col lk) a))))]
    else [TJob [p_tile r pX_empty i; p_tile r pVt k] (qA r i k) (in2 (fun x v a =>
            paste (msub Row li) (msub Col lk) (msz Row li) (msz Col lk) a (gemm kn NoTrans ConjTrans (msz Row li) (msz Col lk) nr (fopp f1) x v f1 (sub (msub Row li) (msub Col lk) a))));
          TJob [p_tile r pV_linked i; p_tile r pXt k] (qA r i k) (in2 (fun v x a =>
            paste (msub Row li) (msub Col lk) (msz Row li) (msz Col lk) a (gemm kn NoTrans ConjTrans (msz Row li) (msz Col lk) nr (fopp f1) v x f1 (sub (msub Row li) (msub Col lk) a))))])
    (zrange (nx r Col i0) (limit li))) q_rows.
(** one iteration, 1260-1504 *)
Definition dr2b_step : list (act (mat K)) :=
  (if on_panel then p_panel ++ map ALoc (q_setup_V ++ [q_set0_T] ++ [q_gemv]) ++ q_sum_T ++ map ALoc [q_trmv] else []) ++
  (if e_row <? n then
     fst bcV ++ (if on_panel then map ALoc q_W else []) ++ fst bcW ++
     map ALoc (q_set0_X ++ q_set0_Xt ++ q_X) ++ q_red_col ++ q_red_row ++
     (if on_panel then map ALoc q_W2 ++ q_sum_T ++ map ALoc q_updX else []) ++
     fst bcX ++ map ALoc q_trigger ++ map ALoc q_update
   else []).
End step.

(** 1148-1518 *)
Definition dist_red2band (r : Z) : list (act (mat K)) :=
  if r2b_nrefls n b =? 0 then [] else flat_map (dr2b_step r) (zrange 0 (r2b_ntiles n b)).
End model.
