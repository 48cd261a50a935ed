(** * Distributed triangular inverse and inverse from a Cholesky factor.
    inverse/triangular/impl.h:230-363, 411-547, inverse/cholesky/impl.h:225-354, 406-541, inverse/triangular.h, inverse/cholesky.h.
    CPU variants (replace_trtri = replace_lauum = false). *)
From Coq Require Import ZArith Lia List Bool.
From Verif Require Import CInt Loop StarField DenseSpec DenseJobs TileJobs DistModel DistMachine DistGrid PanelModel DistCholeskyModel.
Import ListNotations.
Local Open Scope Z_scope.

(** setTile for the local tiles lo .. hi - 1 of a panel along rc: for instance inverse/triangular/impl.h:283-288 *)
Definition set_tiles (Q : Z) (D : coord -> Z -> axis) (rc : coord) (r lo hi : Z) (g : Z -> tid) (p : panel) : panel :=
  fold_left (fun p l => set_tile p (t_gl Q D r rc l) (g (t_gl Q D r rc l))) (zrange lo hi) p.

Section model.
Context {K : starfield} (kn : kernels K).
Variables P Q : Z.
Variable D : coord -> Z -> axis.
Notation own := (t_own Q D).
Notation nx := (t_nx Q D).
Notation gl := (t_gl Q D).
Notation co := (co Q).
Notation szd := (szd Q D).
Notation nrt := (nrt Q D).
Notation lgl := (lgl Q D).
Definition lnr (r : Z) (rc : coord) : Z := ax_local_nr_tiles (ax Q D r rc).
(** the tile whose local index is next_local_tile_from_global_tile(k) (k_local_row, k_local_col) *)
Definition ngl (r : Z) (rc : coord) (k : Z) : Z := gl r rc (nx r rc k).
(** col_panels.nextResource(), row_panels.nextResource(): two workspaces each, used in turn (C13) *)
Definition idC (k : Z) : Z := 1 + k mod 2.
Definition idR (k : Z) : Z := 3 + k mod 2.

(** ** Triangular inverse, lower: inverse/triangular/impl.h:263-352 *)
(** row_panel with its range and its links, 277-291 *)
Definition row_panel_L (r k : Z) : panel :=
  if k <? nrt r - 1 then
    let p := fresh_panel (idR k) 0 (k + 1) in
    if own r Row k =? co Row r then set_tiles Q D Col r 0 (nx r Col (k + 1)) (fun j => M_ r (ngl r Row k) j) p else p
  else fresh_panel (idR k) 0 (nrt r).
(** col_panel with its range and its links, 303-316 *)
Definition col_panel_L (r k : Z) : panel :=
  if 0 <? k then
    let p := fresh_panel (idC k) k (nrt r) in
    if own r Col k =? co Col r then set_tiles Q D Row r (nx r Row k) (lnr r Row) (fun i => M_ r i (ngl r Col k)) p else p
  else fresh_panel (idC k) 0 (nrt r).
(** 263-352 *)
Definition dtrinv_step_L (d : diag) (r k : Z) : list (act (mat K)) :=
  let rp := row_panel_L r k in let cp := col_panel_L r k in
  (if k <? nrt r - 1 then panel_broadcast P Q D Col r (own r Row k) rp else []) ++
  (if own r Col k =? co Col r then
     flat_map (fun l => let i := gl r Row l in
       [ALoc (jtrsm kn Right Lower NoTrans d (szd r Row i) (szd r Col (ngl r Col k)) (fopp f1) (p_tile r rp (ngl r Col k)) (M_ r i (ngl r Col k)))])
       (zrange (nx r Row (k + 1)) (lnr r Row)) else []) ++
  (if 0 <? k then panel_broadcast P Q D Row r (own r Col k) cp else []) ++
  flat_map (fun li => let i := gl r Row li in flat_map (fun lj => let j := gl r Col lj in
      [ALoc (jgemm kn NoTrans NoTrans (szd r Row i) (szd r Col j) (szd r Col k) f1 (p_tile r cp i) (p_tile r rp j) f1 (M_ r i j))])
      (zrange 0 (nx r Col k))) (zrange (nx r Row (k + 1)) (lnr r Row)) ++
  (if own r Row k =? co Row r then
     flat_map (fun l => let j := gl r Col l in
       [ALoc (jtrsm kn Left Lower NoTrans d (szd r Row (ngl r Row k)) (szd r Col j) f1 (p_tile r cp (ngl r Row k)) (M_ r (ngl r Row k) j))])
       (zrange 0 (nx r Col k)) else []) ++
  (if (own r Row k =? co Row r) && (own r Col k =? co Col r) then [ALoc (jtrtri kn Lower d (szd r Row k) (M_ r (lgl r Row k) (lgl r Col k)))] else []).
Definition dtrinv_call_L (d : diag) (r : Z) : list (act (mat K)) := flat_map (dtrinv_step_L d r) (rev (zrange 0 (nrt r))).

(** ** Triangular inverse, upper: inverse/triangular/impl.h:444-533 *)
Definition col_panel_U (r k : Z) : panel :=
  if k <? nrt r - 1 then
    let p := fresh_panel (idC k) 0 (k + 1) in
    if own r Col k =? co Col r then set_tiles Q D Row r 0 (nx r Row (k + 1)) (fun i => M_ r i (ngl r Col k)) p else p
  else fresh_panel (idC k) 0 (nrt r).
Definition row_panel_U (r k : Z) : panel :=
  if 0 <? k then
    let p := fresh_panel (idR k) k (nrt r) in
    if own r Row k =? co Row r then set_tiles Q D Col r (nx r Col k) (lnr r Col) (fun j => M_ r (ngl r Row k) j) p else p
  else fresh_panel (idR k) 0 (nrt r).
Definition dtrinv_step_U (d : diag) (r k : Z) : list (act (mat K)) :=
  let cp := col_panel_U r k in let rp := row_panel_U r k in
  (if k <? nrt r - 1 then panel_broadcast P Q D Row r (own r Col k) cp else []) ++
  (if own r Row k =? co Row r then
     flat_map (fun l => let j := gl r Col l in
       [ALoc (jtrsm kn Left Upper NoTrans d (szd r Row (ngl r Row k)) (szd r Col j) (fopp f1) (p_tile r cp (ngl r Row k)) (M_ r (ngl r Row k) j))])
       (zrange (nx r Col (k + 1)) (lnr r Col)) else []) ++
  (if 0 <? k then panel_broadcast P Q D Col r (own r Row k) rp else []) ++
  flat_map (fun lj => let j := gl r Col lj in flat_map (fun li => let i := gl r Row li in
      [ALoc (jgemm kn NoTrans NoTrans (szd r Row i) (szd r Col j) (szd r Row k) f1 (p_tile r cp i) (p_tile r rp j) f1 (M_ r i j))])
      (zrange 0 (nx r Row k))) (zrange (nx r Col (k + 1)) (lnr r Col)) ++
  (if own r Col k =? co Col r then
     flat_map (fun l => let i := gl r Row l in
       [ALoc (jtrsm kn Right Upper NoTrans d (szd r Row i) (szd r Col (ngl r Col k)) f1 (p_tile r rp (ngl r Col k)) (M_ r i (ngl r Col k)))])
       (zrange 0 (nx r Row k)) else []) ++
  (if (own r Row k =? co Row r) && (own r Col k =? co Col r) then [ALoc (jtrtri kn Upper d (szd r Row k) (M_ r (lgl r Row k) (lgl r Col k)))] else []).
Definition dtrinv_call_U (d : diag) (r : Z) : list (act (mat K)) := flat_map (dtrinv_step_U d r) (rev (zrange 0 (nrt r))).

(** triangular_inverse(grid, uplo, diag, mat_a): inverse/triangular.h:63-75 *)
Definition dist_triangular_inverse (u : uplo) (d : diag) (r : Z) : list (act (mat K)) :=
  match u with Lower => dtrinv_call_L d r | Upper => dtrinv_call_U d r end.

(** ** Assembly of the inverse, lower: inverse/cholesky/impl.h:257-345 *)
(** panels.nextResource(), panelsT.nextResource() (the latter from k = 1 on): used in turn *)
Definition idS (k : Z) : Z := 5 + k mod 2.
Definition idST (k : Z) : Z := 7 + k mod 2.
Definition asm_panel_L (r k : Z) : panel :=
  let p := fresh_panel (idS k) 0 k in
  if own r Row k =? co Row r then set_tiles Q D Col r 0 (nx r Col k) (fun j => M_ r (ngl r Row k) j) p else p.
(** panelT after panelT.reset(), 311-319 *)
Definition asm_diag_L (r k : Z) : panel :=
  let p := fresh_panel (idST k) k (k + 1) in
  if own r Col k =? co Col r then set_tile p (ngl r Row k) (M_ r (lgl r Row k) (lgl r Col k)) else p.
Definition asm_update_L (r k : Z) (p pT : panel) : list (act (mat K)) :=
  flat_map (fun i => if own r Row i =? co Row r then
      flat_map (fun j => if own r Col j =? co Col r then
        [ALoc (jgemm kn ConjTrans NoTrans (szd r Row i) (szd r Col j) (szd r Row k) f1 (p_tile r pT (lgl r Row i)) (p_tile r p (lgl r Col j)) f1 (M_ r (lgl r Row i) (lgl r Col j)))] else [])
        (zrange 0 i) ++
      (if own r Col i =? co Col r then
        [ALoc (jherk kn Lower ConjTrans (szd r Row i) (szd r Row k) f1 (p_tile r p (lgl r Col i)) f1 (M_ r (lgl r Row i) (lgl r Col i)))] else [])
      else []) (zrange 0 k).
Definition dasm_step_L (r k : Z) : list (act (mat K)) :=
  (if 0 <? k then
     let b2 := panel_broadcast2 P Q D Col r (own r Row k) (asm_panel_L r k) (fresh_panel (idST k) 1 k) in
     fst b2 ++ asm_update_L r k (asm_panel_L r k) (snd b2) ++
     (if own r Row k =? co Row r then
        panel_broadcast P Q D Row r (own r Col k) (asm_diag_L r k) ++
        flat_map (fun l => let j := gl r Col l in
          [ALoc (jtrmm kn Left Lower ConjTrans NonUnit (szd r Row (ngl r Row k)) (szd r Col j) f1 (p_tile r (asm_diag_L r k) (ngl r Row k)) (M_ r (ngl r Row k) j))])
          (zrange 0 (nx r Col k)) else [])
   else []) ++
  (if (own r Row k =? co Row r) && (own r Col k =? co Col r) then [ALoc (jlauum kn Lower (szd r Row k) (M_ r (lgl r Row k) (lgl r Col k)))] else []).
Definition dasm_call_L (r : Z) : list (act (mat K)) := flat_map (dasm_step_L r) (zrange 0 (nrt r)).

(** ** Assembly of the inverse, upper: inverse/cholesky/impl.h:438-526 *)
Definition asm_panel_U (r k : Z) : panel :=
  let p := fresh_panel (idS k) 0 k in
  if own r Col k =? co Col r then set_tiles Q D Row r 0 (nx r Row k) (fun i => M_ r i (ngl r Col k)) p else p.
Definition asm_diag_U (r k : Z) : panel :=
  let p := fresh_panel (idST k) k (k + 1) in
  if own r Row k =? co Row r then set_tile p (ngl r Col k) (M_ r (lgl r Row k) (lgl r Col k)) else p.
Definition asm_update_U (r k : Z) (p pT : panel) : list (act (mat K)) :=
  flat_map (fun j => if own r Col j =? co Col r then
      flat_map (fun i => if own r Row i =? co Row r then
        [ALoc (jgemm kn NoTrans ConjTrans (szd r Row i) (szd r Col j) (szd r Col k) f1 (p_tile r p (lgl r Row i)) (p_tile r pT (lgl r Col j)) f1 (M_ r (lgl r Row i) (lgl r Col j)))] else [])
        (zrange 0 j) ++
      (if own r Row j =? co Row r then
        [ALoc (jherk kn Upper NoTrans (szd r Row j) (szd r Col k) f1 (p_tile r p (lgl r Row j)) f1 (M_ r (lgl r Row j) (lgl r Col j)))] else [])
      else []) (zrange 0 k).
Definition dasm_step_U (r k : Z) : list (act (mat K)) :=
  (if 0 <? k then
     let b2 := panel_broadcast2 P Q D Row r (own r Col k) (asm_panel_U r k) (fresh_panel (idST k) 1 k) in
     fst b2 ++ asm_update_U r k (asm_panel_U r k) (snd b2) ++
     (if own r Col k =? co Col r then
        panel_broadcast P Q D Col r (own r Row k) (asm_diag_U r k) ++
        flat_map (fun l => let i := gl r Row l in
          [ALoc (jtrmm kn Right Upper ConjTrans NonUnit (szd r Row i) (szd r Col (ngl r Col k)) f1 (p_tile r (asm_diag_U r k) (ngl r Col k)) (M_ r i (ngl r Col k)))])
          (zrange 0 (nx r Row k)) else [])
   else []) ++
  (if (own r Row k =? co Row r) && (own r Col k =? co Col r) then [ALoc (jlauum kn Upper (szd r Row k) (M_ r (lgl r Row k) (lgl r Col k)))] else []).
Definition dasm_call_U (r : Z) : list (act (mat K)) := flat_map (dasm_step_U r) (zrange 0 (nrt r)).

(** inverse_from_cholesky_factor(grid, uplo, mat_a): inverse/cholesky.h:65-82. The second function is called when the first
    has submitted all its tasks; the tasks and the communications of both are ordered as everywhere: by the pipelines. *)
Definition dist_inverse_from_cholesky_factor (u : uplo) (r : Z) : list (act (mat K)) := match u with
  | Lower => dtrinv_call_L NonUnit r ++ dasm_call_L r
  | Upper => dtrinv_call_U NonUnit r ++ dasm_call_U r end.
End model.
