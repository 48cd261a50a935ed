(** * Back transformation of the reduction to band, local:
    eigensolver/bt_reduction_to_band/impl.h:132-251 (BackTransformationReductionToBand::call), as the list of
    tile jobs it submits. *)
From Coq Require Import ZArith Lia List Bool.
From Verif Require Import Loop StarField DenseSpec Tiling DenseJobs TileJobs HouseSpec HouseModel MultiJobs Red2BandModel.
Import ListNotations.
Local Open Scope Z_scope.

Section model.
Context {K : starfield} (kn : kernels K).
(** size of mat_v (and rows of mat_c), tile size of mat_v (= rows of the tiles of mat_c), band size; the tile
    columns of mat_c; threads for the T factor *)
Variables n mb b : Z.
Variable tc : tiling.
Variable avail_t : Z.

(** 150-154 *)
Definition bt_nrefls : Z := n - b - 1.
(** 164, 176: tile columns of dist_t *)
Definition bt_nblocks : Z := ceil_div bt_nrefls mb.

(** tiles: mat_v, mat_taus (tiles of mb), mat_c; the panels V, W, W2 and the workspaces, two each, used in turn
    (159-174, 188-191); T has a tile per block (164-165) *)
Definition bV (i j : Z) : tid := Tid 0 0 i j.
Definition bTau (k : Z) : tid := Tid 0 1 k 0.
Definition bC (i j : Z) : tid := Tid 0 2 i j.
Definition bT (k : Z) : tid := Tid 0 3 k 0.
(** the number of the iteration that handles block k decides which of the two resources is used (178, 188-191) *)
Definition par (k : Z) : Z := (bt_nblocks - 1 - k) mod 2.
Definition bPV (k i : Z) : tid := Tid 0 (4 + par k) i 0.
Definition bPW (k i : Z) : tid := Tid 0 (6 + par k) i 0.
Definition bW2 (k j : Z) : tid := Tid 0 (8 + par k) j 0.
Definition bWs (k w : Z) : tid := Tid 0 (10 + par k) w 0.

Section step.
Variable k : Z.
(** 180-183 *)
Definition bt_refl : Z := Z.min mb (bt_nrefls - k * mb).
Definition b_row : Z := k * mb + b.
(** views.h:42-56, 141-170: first tile row of the panel and its offset (the tile column is k, with offset 0) *)
Definition bi0 : Z := b_row / mb.
Definition bri (i : Z) : Z := if i =? bi0 then b_row mod mb else 0.
Definition brows (i : Z) : Z := r2b_sz n mb i - bri i.
Definition btl : tiling := Tiling (r2b_nrt n mb - bi0) (fun x => brows (bi0 + x)).

(** 204-219: tiles that contain the head of a reflector are copied and completed (53-61 copyAndSetHHUpperTiles:
    copy, then laset Upper from column j_diag on, zeros above and ones on the diagonal), others are used in place *)
Definition j_diag (i : Z) : Z := Z.max 0 (i * mb - b_row).
Definition bvid (i : Z) : tid := if j_diag i <? bt_refl then bPV k i else bV i k.
Definition hh_upper (jd rows cols : Z) (src dst : mat K) : mat K :=
  let d := paste 0 0 rows cols dst src in
  fun p q => if (0 <=? p) && (p <? rows) && (jd <=? q) && (q <? cols)
             then if p =? q - jd then f1 else if p <? q - jd then f0 else d p q else d p q.
Definition bt_setup_V : list (tjob (mat K)) :=
  for_up bi0 (r2b_nrt n mb) (fun i => if j_diag i <? bt_refl
    then [TJob [bV i k] (bPV k i) (in1 (fun a v => hh_upper (j_diag i) (brows i) bt_refl (sub (bri i) 0 a) v))] else []).
(** 224 computeTFactor: t_factor_impl.h:90-166, 389-417 *)
Definition bt_gemv : mjob (mat K) :=
  MJob (map bvid (zrange bi0 (r2b_nrt n mb)) ++ [bTau k]) (bT k :: map (bWs k) (zrange 0 (tfactor_nworkers btl avail_t - 1))) (fun vs os =>
    match os with
    | [] => []
    | t0 :: ws =>
        let V := nth_tile vs in
        let taus := col_vec (nth_tile vs (r2b_nrt n mb - bi0)) in
        step_gemv btl avail_t bt_refl V taus t0 ::
        map (fun w => paste 0 0 bt_refl bt_refl (nth_tile ws w) (gemv_worker btl bt_refl (tfactor_batch btl avail_t) V taus (w + 1)))
            (zrange 0 (tfactor_nworkers btl avail_t - 1))
    end).
Definition bt_trmv : tjob (mat K) := TJob [bTau k] (bT k) (in1 (fun ta T => copy_diag_and_trmv bt_refl (col_vec ta) T)).
(** 226-230 (89-101 trmmPanel): W = V T^H *)
Definition bt_W : list (tjob (mat K)) :=
  for_up bi0 (r2b_nrt n mb) (fun i => [TJob [bT k; bvid i] (bPW k i) (in2 (fun T v _ => trmm kn Right Upper ConjTrans NonUnit (brows i) bt_refl f1 T v))]).
(** 232-237 (102-114 gemmUpdateW2): W2 = W^H C *)
Definition bt_W2 : list (tjob (mat K)) :=
  for_up 0 (tl_n tc) (fun j => [jset0 (bW2 k j)]) ++
  for_up 0 (tl_n tc) (fun j => for_up bi0 (r2b_nrt n mb) (fun i =>
    [TJob [bPW k i; bC i j] (bW2 k j) (in2 (fun w c w2 => gemm kn ConjTrans NoTrans bt_refl (tl_sz tc j) (brows i) f1 w (sub (bri i) 0 c) f1 w2))])).
(** 239-243 (115-127 gemmTrailingMatrix): C = C - V W2 *)
Definition bt_update : list (tjob (mat K)) :=
  for_up 0 (tl_n tc) (fun j => for_up bi0 (r2b_nrt n mb) (fun i =>
    [TJob [bvid i; bW2 k j] (bC i j) (in2 (fun v w2 c =>
       paste (bri i) 0 (brows i) (tl_sz tc j) c (gemm kn NoTrans NoTrans (brows i) (tl_sz tc j) bt_refl (fopp f1) v w2 f1 (sub (bri i) 0 c))))])).
(** 178-250: one iteration *)
Definition bt_step : list (mjob (mat K)) :=
  map mj bt_setup_V ++ [bt_gemv] ++ [mj bt_trmv] ++ map mj bt_W ++ map mj bt_W2 ++ map mj bt_update.
End step.

(** 133-251 *)
Definition bt_reduction_to_band : list (mjob (mat K)) :=
  if (r2b_nrt n mb =? 0) || (tl_n tc =? 0) then [] else
  if bt_nrefls <=? 0 then [] else flat_map bt_step (rev (zrange 0 bt_nblocks)).
End model.
