(** * Distributed Cholesky factorization: factorization/cholesky/impl.h:190-308, 349-452. *)
From Coq Require Import ZArith Lia List Bool.
From Verif Require Import CInt Loop StarField DenseSpec DenseJobs TileJobs DistModel DistMachine DistGrid PanelModel.
Import ListNotations.
Local Open Scope Z_scope.

Section model.
Context {K : starfield} (kn : kernels K).
Variables P Q : Z.
(** axis rc of the distribution of mat_a, on the ranks with coordinate p along rc *)
Variable D : coord -> Z -> axis.
Notation own := (t_own Q D).
Notation nx := (t_nx Q D).
Notation gl := (t_gl Q D).
Notation co := (co Q).
(** tile (i, j) of mat_a on rank r *)
Definition M_ (r i j : Z) : tid := Tid r 0 i j.
(** the tile whose local index is localTileFromGlobalTile(k) *)
Definition lgl (r : Z) (rc : coord) (k : Z) : Z := gl r rc (t_loc Q D r rc k).
(** size of tile k along rc (the kernels take it from their tiles) *)
Definition szd (r : Z) (rc : coord) (k : Z) : Z := ax_global_tile_size_of (ax Q D r rc) k.
Definition nrt (r : Z) : Z := ax_nr_tiles (ax Q D r Col).
(** panels.nextResource(), panelsT.nextResource(): two workspaces each, used in turn (C13) *)
Definition idP (k : Z) : Z := 1 + k mod 2.
Definition idT (k : Z) : Z := 3 + k mod 2.

(** panelT during the update of the column: one tile, linked to the diagonal tile by its owner; impl.h:235-244 *)
Definition diag_panel_L (r k : Z) : panel :=
  let p := fresh_panel (idT k) k (k + 1) in
  if own r Row k =? co Row r then set_tile p (lgl r Col k) (M_ r (lgl r Row k) (lgl r Col k)) else p.
(** the column update, impl.h:246-256: what is submitted, and panel afterwards *)
Definition column_update_L (r k : Z) : list (act (mat K)) * panel :=
  fold_left (fun acc l => let ik := M_ r (gl r Row l) (lgl r Col k) in
      (fst acc ++ [ALoc (jtrsm kn Right Lower ConjTrans NonUnit (szd r Row (gl r Row l)) (szd r Col k) f1 (p_tile r (diag_panel_L r k) (lgl r Col k)) ik)],
       set_tile (snd acc) (gl r Row l) ik))
    (zrange (nx r Row (k + 1)) (ax_local_nr_tiles (ax Q D r Row))) ([], fresh_panel (idP k) (k + 1) (nrt r)).
(** lines 230-258 *)
Definition panel_part_L (r k : Z) : list (act (mat K)) * panel :=
  if own r Col k =? co Col r then (panel_broadcast P Q D Col r (own r Row k) (diag_panel_L r k) ++ fst (column_update_L r k), snd (column_update_L r k))
  else ([], fresh_panel (idP k) (k + 1) (nrt r)).
(** the trailing matrix, impl.h:264-292 *)
Definition trailing_L (r k : Z) (p pT : panel) : list (act (mat K)) :=
  flat_map (fun j => if own r Col j =? co Col r then
      (if own r Row j =? co Row r then
         [ALoc (jherk kn Lower NoTrans (szd r Row j) (szd r Col k) (fopp f1) (p_tile r p (lgl r Row j)) f1 (M_ r (lgl r Row j) (lgl r Col j)))] else []) ++
      flat_map (fun i => if own r Row i =? co Row r then
         [ALoc (jgemm kn NoTrans ConjTrans (szd r Row i) (szd r Col j) (szd r Col k) (fopp f1) (p_tile r p (lgl r Row i)) (p_tile r pT (lgl r Col j)) f1 (M_ r (lgl r Row i) (lgl r Col j)))] else [])
       (zrange (j + 1) (nrt r)) else []) (zrange (k + 1) (nrt r)).
(** one iteration, impl.h:217-295 *)
Definition dist_step_L (r k : Z) : list (act (mat K)) :=
  (if (own r Row k =? co Row r) && (own r Col k =? co Col r) then [ALoc (jpotrf kn Lower (szd r Row k) (M_ r (lgl r Row k) (lgl r Col k)))] else []) ++
  if k + 1 =? nrt r then [] else
  let pp := panel_part_L r k in
  let b2 := panel_broadcast2 P Q D Row r (own r Col k) (snd pp) (fresh_panel (idT k) (k + 1) (nrt r - 1)) in
  fst pp ++ fst b2 ++ trailing_L r k (snd pp) (snd b2).
Definition dist_call_L (r : Z) : list (act (mat K)) := flat_map (dist_step_L r) (zrange 0 (nrt r)).

(** the same for the upper triangle, impl.h:349-452 *)
Definition diag_panel_U (r k : Z) : panel :=
  let p := fresh_panel (idT k) k (k + 1) in
  if own r Col k =? co Col r then set_tile p (lgl r Row k) (M_ r (lgl r Row k) (lgl r Col k)) else p.
Definition row_update_U (r k : Z) : list (act (mat K)) * panel :=
  fold_left (fun acc l => let kj := M_ r (lgl r Row k) (gl r Col l) in
      (fst acc ++ [ALoc (jtrsm kn Left Upper ConjTrans NonUnit (szd r Row k) (szd r Col (gl r Col l)) f1 (p_tile r (diag_panel_U r k) (lgl r Row k)) kj)],
       set_tile (snd acc) (gl r Col l) kj))
    (zrange (nx r Col (k + 1)) (ax_local_nr_tiles (ax Q D r Col))) ([], fresh_panel (idP k) (k + 1) (nrt r)).
Definition panel_part_U (r k : Z) : list (act (mat K)) * panel :=
  if own r Row k =? co Row r then (panel_broadcast P Q D Row r (own r Col k) (diag_panel_U r k) ++ fst (row_update_U r k), snd (row_update_U r k))
  else ([], fresh_panel (idP k) (k + 1) (nrt r)).
Definition trailing_U (r k : Z) (p pT : panel) : list (act (mat K)) :=
  flat_map (fun i => if own r Row i =? co Row r then
      (if own r Col i =? co Col r then
         [ALoc (jherk kn Upper ConjTrans (szd r Col i) (szd r Row k) (fopp f1) (p_tile r p (lgl r Col i)) f1 (M_ r (lgl r Row i) (lgl r Col i)))] else []) ++
      flat_map (fun j => if own r Col j =? co Col r then
         [ALoc (jgemm kn ConjTrans NoTrans (szd r Row i) (szd r Col j) (szd r Row k) (fopp f1) (p_tile r pT (lgl r Row i)) (p_tile r p (lgl r Col j)) f1 (M_ r (lgl r Row i) (lgl r Col j)))] else [])
       (zrange (i + 1) (nrt r)) else []) (zrange (k + 1) (nrt r)).
Definition dist_step_U (r k : Z) : list (act (mat K)) :=
  (if (own r Row k =? co Row r) && (own r Col k =? co Col r) then [ALoc (jpotrf kn Upper (szd r Row k) (M_ r (lgl r Row k) (lgl r Col k)))] else []) ++
  if k + 1 =? nrt r then [] else
  let pp := panel_part_U r k in
  let b2 := panel_broadcast2 P Q D Col r (own r Row k) (snd pp) (fresh_panel (idT k) (k + 1) (nrt r - 1)) in
  fst pp ++ fst b2 ++ trailing_U r k (snd pp) (snd b2).
Definition dist_call_U (r : Z) : list (act (mat K)) := flat_map (dist_step_U r) (zrange 0 (nrt r)).

(** cholesky_factorization(grid, uplo, mat_a), factorization/cholesky.h:72-86 *)
Definition dist_cholesky (u : uplo) (r : Z) : list (act (mat K)) := match u with Lower => dist_call_L r | Upper => dist_call_U r end.
End model.
