(** * Reduction to band form, local: eigensolver/reduction_to_band/impl.h:990-1139
    (ReductionToBand::call, Backend::MC), as the list of tile jobs it submits. *)
From Coq Require Import ZArith Lia List Bool.
From Verif Require Import Loop StarField DenseSpec Tiling DenseJobs TileJobs HouseSpec HouseModel MultiJobs.
Import ListNotations.
Local Open Scope Z_scope.

Section subtiles.
Context {K : starfield}.
(** splitTile(tile, {{r, c}, {m, n}}): what is read, and what writing to it does to the tile *)
Definition sub (r c : Z) (A : mat K) : mat K := fun p q => A (r + p) (c + q).
Definition paste (r c m n : Z) (A S : mat K) : mat K := fun p q =>
  if (r <=? p) && (p <? r + m) && (c <=? q) && (q <? c + n) then S (p - r) (q - c) else A p q.
Definition zero_mat : mat K := fun _ _ => f0.
(** the i-th tile of a list (i = 0, 1, ...) *)
Definition nth_tile (l : list (mat K)) (i : Z) : mat K := nth (Z.to_nat i) l zero_mat.
Definition col_vec (A : mat K) : Z -> F K := fun p => A p 0.
End subtiles.

Section model.
Context {K : starfield} (kn : kernels K) (rs : roots K).
(** matrix size, tile size (square tiles), band size *)
Variables n mb b : Z.
(** configuration: number of threads for the panel and for the T factor (tune.h, red2band_panel_nworkers,
    red2band_panel_worker_minwork, tfactor_nworkers), and the order in which the threads of panel j_sub
    run STEP3 of its reflector j *)
Variables avail minwork avail_t : Z.
Variable ord : Z -> Z -> list Z.

Definition r2b_nrt : Z := ceil_div n mb.
Definition r2b_sz (k : Z) : Z := Z.min mb (n - k * mb).
(** 1005: reflectors of size 1 are not considered *)
Definition r2b_nrefls : Z := Z.max 0 (n - b - 1).
(** 1021 *)
Definition r2b_ntiles : Z := (r2b_nrefls - 1) / b + 1.

(** tiles: the matrix; the taus, retiled by b (1015-1016); the panels V, W, X and the workspaces, of which
    there are two each, used in turn (1026-1039: RoundRobin); T (1083, fresh at every step; w2 is the same
    tile, 1118) *)
Definition rA (i j : Z) : tid := Tid 0 0 i j.
Definition rTau (j : Z) : tid := Tid 0 1 j 0.
Definition rV (j i : Z) : tid := Tid 0 (2 + j mod 2) i 0.
Definition rW (j i : Z) : tid := Tid 0 (4 + j mod 2) i 0.
Definition rX (j i : Z) : tid := Tid 0 (6 + j mod 2) i 0.
Definition rWs (j w : Z) : tid := Tid 0 (8 + j mod 2) w 0.
Definition rT (j : Z) : tid := Tid 0 10 j 0.

Section step.
Variable j : Z.  (* j_sub *)
(** 1051-1055: offsets of the panel and of the trailing matrix, number of reflectors *)
Definition e_row : Z := (j + 1) * b.
Definition e_col : Z := j * b.
Definition n_refl : Z := Z.min b (r2b_nrefls - j * b).
(** matrix/views.h:42-56, 141-170 (SubPanelView): first tile row, its offset, the tile column and its offset *)
Definition i0 : Z := e_row / mb.
Definition ri (i : Z) : Z := if i =? i0 then e_row mod mb else 0.
Definition j0 : Z := e_col / mb.
Definition cj : Z := e_col mod mb.
Definition rows (i : Z) : Z := r2b_sz i - ri i.
Definition ptl : tiling := Tiling (r2b_nrt - i0) (fun k => rows (i0 + k)).
Definition pcols : Z := Z.min b (r2b_sz j0 - cj).

(** 247-348 local::computePanelReflectors, as one task *)
Definition job_panel : mjob (mat K) :=
  MJob [] (rTau j :: map (fun i => rA i j0) (zrange i0 r2b_nrt)) (fun _ os =>
    match os with
    | [] => []
    | taus0 :: tiles =>
        let P := fun k => sub (ri (i0 + k)) cj (nth_tile tiles k) in
        let res := panel_reflectors rs ptl (panel_nworkers ptl avail minwork) b n_refl (ord j) P (col_vec taus0) in
        (fun p q => if q =? 0 then snd res p else taus0 p q) ::
        map (fun k => paste (ri (i0 + k)) cj (rows (i0 + k)) pcols (nth_tile tiles k) (fst res k)) (zrange 0 (r2b_nrt - i0))
    end).

(** 350-409 setupReflectorPanelV (has_head, force_copy = not is_full_band): the first tile of V is copied
    from A and made unit lower trapezoidal, the others are copied, or are the tiles of A themselves *)
Definition full_band : bool := b =? mb.
Definition vid (i : Z) : tid := if (i =? i0) || negb full_band then rV j i else rA i j0.
Definition jobs_setup_V : list (tjob (mat K)) :=
  [TJob [rA i0 j0] (rV j i0) (in1 (fun a v => paste 0 0 (rows i0) (Z.min n_refl pcols) v (sub (ri i0) cj a)));
   TJob [] (rV j i0) (fun _ v => fun p q =>
     if (0 <=? p) && (p <? rows i0) && (0 <=? q) && (q <? n_refl)
     then if p =? q then f1 else if p <? q then f0 else v p q else v p q)] ++
  for_up (i0 + 1) r2b_nrt (fun i => if full_band then [] else
    [TJob [rA i j0] (rV j i) (in1 (fun a v => paste 0 0 (rows i) pcols v (sub (ri i) cj a)))]).

(** factorization/qr/t_factor_impl.h:90-166, 389-417: the task of step_gemv (it uses as many workspace tiles
    as it has workers but one), then the one of step_copy_diag_and_trmv *)
Definition job_gemv : mjob (mat K) :=
  MJob (map vid (zrange i0 r2b_nrt) ++ [rTau j]) (rT j :: map (rWs j) (zrange 0 (tfactor_nworkers ptl avail_t - 1))) (fun vs os =>
    match os with
    | [] => []
    | t0 :: ws =>
        let V := nth_tile vs in
        let taus := col_vec (nth_tile vs (r2b_nrt - i0)) in
        step_gemv ptl avail_t n_refl V taus t0 ::
        map (fun w => paste 0 0 n_refl n_refl (nth_tile ws w) (gemv_worker ptl n_refl (tfactor_batch ptl avail_t) V taus (w + 1)))
            (zrange 0 (tfactor_nworkers ptl avail_t - 1))
    end).
Definition job_trmv : tjob (mat K) := TJob [rTau j] (rT j) (in1 (fun ta T => copy_diag_and_trmv n_refl (col_vec ta) T)).

(** 411-434 trmmComputeW: W = V T *)
Definition jobs_W : list (tjob (mat K)) :=
  for_up i0 r2b_nrt (fun i => [TJob [rT j; vid i] (rW j i) (in2 (fun T v _ => trmm kn Right Upper NoTrans NonUnit (rows i) n_refl f1 T v))]).
(** 455-506 hemmComputeX: X = At W, At Hermitian (208-234: hemmDiag, hemmOffDiag) *)
Definition jobs_X : list (tjob (mat K)) :=
  for_up i0 r2b_nrt (fun i => [jset0 (rX j i)]) ++
  for_up i0 r2b_nrt (fun i => for_down i i0 (fun k =>
    if i =? k then [TJob [rA i i; rW j i] (rX j i) (in2 (fun a w x => hemm kn Left Lower (rows i) n_refl f1 (sub (ri i) (ri i) a) w f1 x))]
    else [TJob [rA i k; rW j k] (rX j i) (in2 (fun a w x => gemm kn NoTrans NoTrans (rows i) n_refl (rows k) f1 (sub (ri i) (ri k) a) w f1 x));
          TJob [rA i k; rW j i] (rX j k) (in2 (fun a w x => gemm kn ConjTrans NoTrans (rows k) n_refl (rows i) f1 (sub (ri i) (ri k) a) w f1 x))])).
(** 508-531 gemmComputeW2: W2 = W^H X *)
Definition jobs_W2 : list (tjob (mat K)) :=
  [jset0 (rT j)] ++ for_up i0 r2b_nrt (fun i => [jgemm kn ConjTrans NoTrans n_refl n_refl (rows i) f1 (rW j i) (rX j i) f1 (rT j)]).
(** 436-453 gemmUpdateX: X = X - 1/2 V W2 *)
Definition jobs_updX : list (tjob (mat K)) :=
  for_up i0 r2b_nrt (fun i => [jgemm kn NoTrans NoTrans (rows i) n_refl n_refl (fopp fhalf) (vid i) (rT j) f1 (rX j i)]).
(** 533-579 her2kUpdateTrailingMatrix: At = At - X V^H - V X^H on the lower triangle (236-263: her2kDiag, her2kOffDiag) *)
Definition jobs_update : list (tjob (mat K)) :=
  for_up i0 r2b_nrt (fun i => for_up i0 (i + 1) (fun k =>
    if i =? k then [TJob [vid i; rX j i] (rA i i) (in2 (fun v x a =>
      paste (ri i) (ri i) (rows i) (rows i) a (her2k kn Lower NoTrans (rows i) n_refl (fopp f1) v x f1 (sub (ri i) (ri i) a))))]
    else [TJob [rX j i; vid k] (rA i k) (in2 (fun x v a =>
            paste (ri i) (ri k) (rows i) (rows k) a (gemm kn NoTrans ConjTrans (rows i) (rows k) n_refl (fopp f1) x v f1 (sub (ri i) (ri k) a))));
          TJob [vid i; rX j k] (rA i k) (in2 (fun v x a =>
            paste (ri i) (ri k) (rows i) (rows k) a (gemm kn NoTrans ConjTrans (rows i) (rows k) n_refl (fopp f1) v x f1 (sub (ri i) (ri k) a))))])).

(** 1048-1136: one iteration *)
Definition r2b_step : list (mjob (mat K)) :=
  [job_panel] ++ map mj jobs_setup_V ++ [job_gemv] ++ [mj job_trmv] ++
  (if e_row <? n then map mj jobs_W ++ map mj jobs_X ++ map mj jobs_W2 ++ map mj jobs_updX ++ map mj jobs_update else []).
End step.

(** 990-1139 *)
Definition reduction_to_band : list (mjob (mat K)) :=
  if r2b_nrefls =? 0 then [] else flat_map r2b_step (zrange 0 r2b_ntiles).
End model.
