(** * Distributed reduction to standard form: eigensolver/gen_to_std/impl.h:284-494, 569-769, eigensolver/gen_to_std.h:103-129. *)
From Coq Require Import ZArith Lia List Bool.
From Verif Require Import CInt Loop StarField DenseSpec DenseJobs TileJobs DistModel DistMachine DistGrid PanelModel DistCholeskyModel DistInverseModel.
Import ListNotations.
Local Open Scope Z_scope.

(** tile (i, j) of mat_l (mat_u) on rank r: matrix 1; mat_a is matrix 0 *)
Definition ML_ (r i j : Z) : tid := Tid r 1 i j.
(** l_panels.nextResource(), l_panelsT, a_panels, a_panelsT: two workspaces each, used in turn (C13). gen_to_std/impl.h:318-323, 338-341 *)
Definition idL (k : Z) : Z := 2 + k mod 2.
Definition idLT (k : Z) : Z := 4 + k mod 2.
Definition idA (k : Z) : Z := 6 + k mod 2.
Definition idAT (k : Z) : Z := 8 + k mod 2.

Section model.
Context {K : starfield} (kn : kernels K).
Variables P Q : Z.
Variable D : coord -> Z -> axis.
Notation own := (t_own Q D).
Notation nx := (t_nx Q D).
Notation gl := (t_gl Q D).
Notation co := (co Q).
Notation szd := (szd Q D).
Notation nrt := (nrt Q D).
Notation lgl := (lgl Q D).
Notation lnr := (lnr Q D).
Notation ngl := (ngl Q D).

(** ** Lower: 325-492. The tile mat_l(k, k), that hegst accesses read-write (376), is modelled as read only: hegst does not change it. *)
(** l_panel, 342, 351-357 *)
Definition l_panel_L (r k : Z) : panel :=
  let p := fresh_panel (idL k) k (nrt r) in
  if own r Col k =? co Col r then set_tiles Q D Row r (nx r Row k) (lnr r Row) (fun i => ML_ r i (ngl r Col k)) p else p.
(** a_panelT with the updated row k, 344, 377 *)
Definition a_row_L (r k : Z) : panel :=
  let p := fresh_panel (idAT k) 0 k in
  if own r Row k =? co Row r then set_tiles Q D Col r 0 (nx r Col k) (fun j => M_ r (ngl r Row k) j) p else p.
(** a_panelT with the diagonal tile, 417-421 *)
Definition a_diag_L (r k : Z) : panel :=
  let p := fresh_panel (idAT k) k (k + 1) in
  if own r Row k =? co Row r then set_tile p (ngl r Col k) (M_ r (lgl r Row k) (lgl r Col k)) else p.
(** a_panel, 409, 433 *)
Definition a_panel_L (r k : Z) : panel :=
  let p := fresh_panel (idA k) (k + 1) (nrt r) in
  if own r Col k =? co Col r then set_tiles Q D Row r (nx r Row (k + 1)) (lnr r Row) (fun i => M_ r i (lgl r Col k)) p else p.
(** continue update previous panels, 367-379 *)
Definition g2s_trsm_L (r k : Z) (lp : panel) : list (act (mat K)) :=
  if own r Row k =? co Row r then
    flat_map (fun l => let j := gl r Col l in
      [ALoc (jtrsm kn Left Lower NoTrans NonUnit (szd r Row (ngl r Row k)) (szd r Col j) f1 (p_tile r lp (ngl r Row k)) (M_ r (ngl r Row k) j))])
      (zrange 0 (nx r Col k)) else [].
(** 385-394 *)
Definition g2s_gemm_L (r k : Z) (lp ar : panel) : list (act (mat K)) :=
  flat_map (fun lj => let j := gl r Col lj in flat_map (fun li => let i := gl r Row li in
      [ALoc (jgemm kn NoTrans NoTrans (szd r Row i) (szd r Col j) (szd r Row k) (fopp f1) (p_tile r lp i) (p_tile r ar j) f1 (M_ r i j))])
      (zrange (nx r Row (k + 1)) (lnr r Row))) (zrange 0 (nx r Col k)).
(** panel partial update, 425-434 *)
Definition g2s_panel_L (r k : Z) (lpT ad : panel) : list (act (mat K)) :=
  flat_map (fun l => let i := gl r Row l in
    [ALoc (jtrsm kn Right Lower ConjTrans NonUnit (szd r Row i) (szd r Col (lgl r Col k)) f1 (p_tile r lpT (ngl r Col k)) (M_ r i (lgl r Col k)));
     ALoc (jhemm kn Right Lower (szd r Row i) (szd r Col (lgl r Col k)) (fopp fhalf) (p_tile r ad (ngl r Col k)) (ML_ r i (lgl r Col k)) f1 (M_ r i (lgl r Col k)))])
    (zrange (nx r Row (k + 1)) (lnr r Row)).
(** trailing matrix update, 450-484 *)
Definition g2s_trail_L (r k : Z) (lp lpT ap apT : panel) : list (act (mat K)) :=
  flat_map (fun j => if own r Col j =? co Col r then
      (if own r Row j =? co Row r then
        [ALoc (jher2k kn Lower NoTrans (szd r Row j) (szd r Col k) (fopp f1) (p_tile r ap (lgl r Row j)) (p_tile r lp (lgl r Row j)) f1 (M_ r (lgl r Row j) (lgl r Col j)))] else []) ++
      flat_map (fun i => if own r Row i =? co Row r then
        [ALoc (jgemm kn NoTrans ConjTrans (szd r Row i) (szd r Col j) (szd r Col k) (fopp f1) (p_tile r ap (lgl r Row i)) (p_tile r lpT (lgl r Col j)) f1 (M_ r (lgl r Row i) (lgl r Col j)));
         ALoc (jgemm kn NoTrans ConjTrans (szd r Row i) (szd r Col j) (szd r Col k) (fopp f1) (p_tile r lp (lgl r Row i)) (p_tile r apT (lgl r Col j)) f1 (M_ r (lgl r Row i) (lgl r Col j)))] else [])
        (zrange (j + 1) (nrt r))
      else []) (zrange (k + 1) (nrt r)).
(** 491-499 *)
Definition g2s_last_L (r k : Z) (ad : panel) : list (act (mat K)) :=
  flat_map (fun l => let i := gl r Row l in
    [ALoc (jhemm kn Right Lower (szd r Row i) (szd r Col (lgl r Col k)) (fopp fhalf) (p_tile r ad (ngl r Col k)) (ML_ r i (lgl r Col k)) f1 (M_ r i (lgl r Col k)))])
    (zrange (nx r Row (k + 1)) (lnr r Row)).
Definition g2s_step_L (r k : Z) : list (act (mat K)) :=
  let lp := l_panel_L r k in
  let bl := panel_broadcast2 P Q D Row r (own r Col k) lp (fresh_panel (idLT k) k (nrt r - 1)) in
  fst bl ++ g2s_trsm_L r k lp ++
  (if k <? nrt r - 1 then panel_broadcast P Q D Col r (own r Row k) (a_row_L r k) ++ g2s_gemm_L r k lp (a_row_L r k) else []) ++
  (if (own r Row k =? co Row r) && (own r Col k =? co Col r) then [ALoc (jhegst kn Lower (szd r Row k) (M_ r (lgl r Row k) (lgl r Col k)) (ML_ r (lgl r Row k) (lgl r Col k)))] else []) ++
  (if k =? nrt r - 1 then [] else
    (if own r Col k =? co Col r then
       panel_broadcast P Q D Col r (own r Row k) (a_diag_L r k) ++ g2s_panel_L r k (snd bl) (a_diag_L r k) else []) ++
    (let ba := panel_broadcast2 P Q D Row r (own r Col k) (a_panel_L r k) (fresh_panel (idAT k) (k + 1) (nrt r - 1)) in
     fst ba ++ g2s_trail_L r k lp (snd bl) (a_panel_L r k) (snd ba) ++
     (if own r Col k =? co Col r then g2s_last_L r k (a_diag_L r k) else []))).
Definition g2s_call_L (r : Z) : list (act (mat K)) := flat_map (g2s_step_L r) (zrange 0 (nrt r)).

(** ** Upper: 593-767 *)
Definition u_panel_U (r k : Z) : panel :=
  let p := fresh_panel (idL k) k (nrt r) in
  if own r Row k =? co Row r then set_tiles Q D Col r (nx r Col k) (lnr r Col) (fun i => ML_ r (ngl r Row k) i) p else p.
Definition a_col_U (r k : Z) : panel :=
  let p := fresh_panel (idAT k) 0 k in
  if own r Col k =? co Col r then set_tiles Q D Row r 0 (nx r Row k) (fun i => M_ r i (ngl r Col k)) p else p.
Definition a_diag_U (r k : Z) : panel :=
  let p := fresh_panel (idAT k) k (k + 1) in
  if own r Col k =? co Col r then set_tile p (ngl r Row k) (M_ r (lgl r Row k) (lgl r Col k)) else p.
Definition a_panel_U (r k : Z) : panel :=
  let p := fresh_panel (idA k) (k + 1) (nrt r) in
  if own r Row k =? co Row r then set_tiles Q D Col r (nx r Col (k + 1)) (lnr r Col) (fun j => M_ r (lgl r Row k) j) p else p.
(** 635-646 *)
Definition g2s_trsm_U (r k : Z) (up : panel) : list (act (mat K)) :=
  if own r Col k =? co Col r then
    flat_map (fun l => let i := gl r Row l in
      [ALoc (jtrsm kn Right Upper NoTrans NonUnit (szd r Row i) (szd r Col (ngl r Col k)) f1 (p_tile r up (ngl r Col k)) (M_ r i (ngl r Col k)))])
      (zrange 0 (nx r Row k)) else [].
(** 652-661 *)
Definition g2s_gemm_U (r k : Z) (up ac : panel) : list (act (mat K)) :=
  flat_map (fun li => let i := gl r Row li in flat_map (fun lj => let j := gl r Col lj in
      [ALoc (jgemm kn NoTrans NoTrans (szd r Row i) (szd r Col j) (szd r Col k) (fopp f1) (p_tile r ac i) (p_tile r up j) f1 (M_ r i j))])
      (zrange (nx r Col (k + 1)) (lnr r Col))) (zrange 0 (nx r Row k)).
(** 693-702 *)
Definition g2s_panel_U (r k : Z) (upT ad : panel) : list (act (mat K)) :=
  flat_map (fun l => let j := gl r Col l in
    [ALoc (jtrsm kn Left Upper ConjTrans NonUnit (szd r Row (lgl r Row k)) (szd r Col j) f1 (p_tile r upT (ngl r Row k)) (M_ r (lgl r Row k) j));
     ALoc (jhemm kn Left Upper (szd r Row (lgl r Row k)) (szd r Col j) (fopp fhalf) (p_tile r ad (ngl r Row k)) (ML_ r (lgl r Row k) j) f1 (M_ r (lgl r Row k) j))])
    (zrange (nx r Col (k + 1)) (lnr r Col)).
(** 718-752 *)
Definition g2s_trail_U (r k : Z) (up upT ap apT : panel) : list (act (mat K)) :=
  flat_map (fun i => if own r Row i =? co Row r then
      (if own r Col i =? co Col r then
        [ALoc (jher2k kn Upper ConjTrans (szd r Row i) (szd r Row k) (fopp f1) (p_tile r ap (lgl r Col i)) (p_tile r up (lgl r Col i)) f1 (M_ r (lgl r Row i) (lgl r Col i)))] else []) ++
      flat_map (fun j => if own r Col j =? co Col r then
        [ALoc (jgemm kn ConjTrans NoTrans (szd r Row i) (szd r Col j) (szd r Row k) (fopp f1) (p_tile r apT (lgl r Row i)) (p_tile r up (lgl r Col j)) f1 (M_ r (lgl r Row i) (lgl r Col j)));
         ALoc (jgemm kn ConjTrans NoTrans (szd r Row i) (szd r Col j) (szd r Row k) (fopp f1) (p_tile r upT (lgl r Row i)) (p_tile r ap (lgl r Col j)) f1 (M_ r (lgl r Row i) (lgl r Col j)))] else [])
        (zrange (i + 1) (nrt r))
      else []) (zrange (k + 1) (nrt r)).
(** 759-766 *)
Definition g2s_last_U (r k : Z) (ad : panel) : list (act (mat K)) :=
  flat_map (fun l => let j := gl r Col l in
    [ALoc (jhemm kn Left Upper (szd r Row (lgl r Row k)) (szd r Col j) (fopp fhalf) (p_tile r ad (ngl r Row k)) (ML_ r (lgl r Row k) j) f1 (M_ r (lgl r Row k) j))])
    (zrange (nx r Col (k + 1)) (lnr r Col)).
Definition g2s_step_U (r k : Z) : list (act (mat K)) :=
  let up := u_panel_U r k in
  let bu := panel_broadcast2 P Q D Col r (own r Row k) up (fresh_panel (idLT k) k (nrt r - 1)) in
  fst bu ++ g2s_trsm_U r k up ++
  (if k <? nrt r - 1 then panel_broadcast P Q D Row r (own r Col k) (a_col_U r k) ++ g2s_gemm_U r k up (a_col_U r k) else []) ++
  (if (own r Row k =? co Row r) && (own r Col k =? co Col r) then [ALoc (jhegst kn Upper (szd r Row k) (M_ r (lgl r Row k) (lgl r Col k)) (ML_ r (lgl r Row k) (lgl r Col k)))] else []) ++
  (if k =? nrt r - 1 then [] else
    (if own r Row k =? co Row r then
       panel_broadcast P Q D Row r (own r Col k) (a_diag_U r k) ++ g2s_panel_U r k (snd bu) (a_diag_U r k) else []) ++
    (let ba := panel_broadcast2 P Q D Col r (own r Row k) (a_panel_U r k) (fresh_panel (idAT k) (k + 1) (nrt r - 1)) in
     fst ba ++ g2s_trail_U r k up (snd bu) (a_panel_U r k) (snd ba) ++
     (if own r Row k =? co Row r then g2s_last_U r k (a_diag_U r k) else []))).
Definition g2s_call_U (r : Z) : list (act (mat K)) := flat_map (g2s_step_U r) (zrange 0 (nrt r)).

(** generalized_to_standard(grid, uplo, mat_a, mat_b): eigensolver/gen_to_std.h:103-129 *)
Definition dist_gen_to_std (u : uplo) (r : Z) : list (act (mat K)) :=
  match u with Lower => g2s_call_L r | Upper => g2s_call_U r end.
End model.
