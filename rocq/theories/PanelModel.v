(** * Panels and panel broadcasts: matrix/panel.h, communication/broadcast_panel.h. *)
From Coq Require Import ZArith Lia List Bool.
From Verif Require Import CInt Loop DistModel DistSpec DistBuilt DenseJobs DistMachine DistGrid.
Import ListNotations.
Local Open Scope Z_scope.

(** matrix/panel.h: a panel gives access to the tiles start .. end-1 (of the parent matrix, along one
    coordinate); a tile is either linked to an external tile (external_) or it is a tile of the panel's own
    workspace (data_, a matrix). Tiles are named by their global index: for a given rank, local and global
    indices correspond one to one (C03). *)
Record panel := Panel { p_id : Z; p_lo : Z; p_hi : Z; p_ext : Z -> option tid }.
(** a panel after construction or reset() (panel.h:302-318) and setRange (155-186) *)
Definition fresh_panel (id lo hi : Z) : panel := Panel id lo hi (fun _ => None).
(** setTile, panel.h:93-123 *)
Definition set_tile (p : panel) (i : Z) (t : tid) : panel :=
  Panel (p_id p) (p_lo p) (p_hi p) (fun j => if j =? i then Some t else p_ext p j).
(** the tile of the workspace; the tile that read() gives access to (panel.h:130-151) *)
Definition p_int (r : Z) (p : panel) (i : Z) : tid := Tid r (p_id p) i 0.
Definition p_tile (r : Z) (p : panel) (i : Z) : tid := match p_ext p i with Some t => t | None => p_int r p i end.

Section model.
Context {V : Type}.
Variables P Q : Z.
(** axis rc of the parent distribution, on the ranks with coordinate p along rc *)
Variable D : coord -> Z -> axis.
Definition ax (r : Z) (rc : coord) : axis := D rc (co Q rc r).
Definition t_own (r : Z) (rc : coord) (k : Z) : Z := ax_rank_global_tile (ax r rc) k.
(** the tile with a given local index *)
Definition t_gl (r : Z) (rc : coord) (l : Z) : Z := ax_global_tile_from_local_tile (ax r rc) l.
Definition t_loc (r : Z) (rc : coord) (k : Z) : Z := ax_local_tile_from_global_tile (ax r rc) k.
Definition t_nx (r : Z) (rc : coord) (k : Z) : Z := ax_next_local_tile_from_global_tile (ax r rc) k.

(** broadcast(rank_root, panel, serial_comm): broadcast_panel.h:42-66. rc is the coordinate the tiles of the
    panel run along (Row for a column panel): what is broadcast goes to the ranks that share it. *)
Definition panel_broadcast (rc : coord) (r root : Z) (p : panel) : list (act V) :=
  if gs P Q (other rc) <=? 1 then [] else
  flat_map (fun l => let i := t_gl r rc l in
    [ACom (if co Q (other rc) r =? root then bsend (cm rc (co Q rc r)) (mk Q rc (co Q rc r) root) (p_tile r p i)
           else brecv (cm rc (co Q rc r)) (mk Q rc (co Q rc r) root) (p_int r p i))])
    (zrange (t_nx r rc (p_lo p)) (t_nx r rc (p_hi p))).

(** one iteration of STEP 2, broadcast_panel.h:168-190 *)
Definition bcastT_step (rc : coord) (r : Z) (p : panel) (k : Z) (acc : list (act V) * panel) : list (act V) * panel :=
  let rT := other rc in
  let pT := snd acc in
  if t_own r rT k =? co Q rT r then
    let kT := t_gl r rT (t_loc r rT k) in
    if t_own r rc k =? co Q rc r then
      let pT' := set_tile pT kT (p_tile r p (t_gl r rc (t_loc r rc k))) in
      (fst acc ++ (if 1 <? gs P Q rc then [ACom (bsend (cm rT (co Q rT r)) (mk Q rT (co Q rT r) (co Q rc r)) (p_tile r pT' kT))] else []), pT')
    else
      (fst acc ++ (if 1 <? gs P Q rc then [ACom (brecv (cm rT (co Q rT r)) (mk Q rT (co Q rT r) (t_own r rc k)) (p_int r pT kT))] else []), pT)
  else acc.
(** broadcast(rank_root, panel, panelT, row_task_chain, col_task_chain): broadcast_panel.h:114-192 (the
    assertions are hypotheses of the theorems): what rank r submits, and panelT afterwards. *)
Definition panel_broadcast2 (rc : coord) (r root : Z) (p pT : panel) : list (act V) * panel :=
  if p_lo p =? p_hi p then ([], pT) else
  let '(s2, pT') := fold_left (fun acc k => bcastT_step rc r p k acc) (zrange (p_lo pT) (p_hi pT)) ([], pT) in
  (panel_broadcast rc r root p ++ s2, pT').
End model.
