(** * Distributed general and Hermitian multiplication.
    multiplication/general/impl.h:64-152, multiplication/hermitian/impl.h:98-211 and their dispatchers multiplication/general.h:80-97,
    multiplication/hermitian.h:28-63. *)
From Coq Require Import ZArith Lia List Bool.
From Verif Require Import CInt Loop StarField DenseSpec DenseJobs TileJobs DistModel DistMachine DistGrid PanelModel DistInverseModel DistTriModel.
Import ListNotations.
Local Open Scope Z_scope.

(** tiles of mat_a, mat_b, mat_c on rank r: matrices 0, 1, 2 *)
Definition DA_ (r i j : Z) : tid := Tid r 0 i j.
Definition DB_ (r i j : Z) : tid := Tid r 1 i j.
Definition DC_ (r i j : Z) : tid := Tid r 2 i j.
(** panelsA.nextResource(), panelsB.nextResource(), c_panels.nextResource(): two workspaces each, used in turn (C13) *)
Definition mA (k : Z) : Z := 3 + k mod 2.
Definition mB (k : Z) : Z := 5 + k mod 2.
Definition mC (k : Z) : Z := 7 + k mod 2.

Section model.
Context {K : starfield} (kn : kernels K).
Variables P Q : Z.
(** axes of the distributions of mat_a, mat_b, mat_c *)
Variables DA DB DC : coord -> Z -> axis.
Variables al be : F K.
Notation co := (co Q).
Notation lnt := (lnt Q).
Notation szt := (szt Q).
Definition nrt (D : coord -> Z -> axis) (r : Z) (c : coord) : Z := ax_nr_tiles (ax Q D r c).
(** if (mat_c.size().isEmpty()) return; if (mat_b.size().isEmpty()) return; *)
Definition m_empty (D : coord -> Z -> axis) (r : Z) : bool := (ax_size (ax Q D r Row) =? 0) || (ax_size (ax Q D r Col) =? 0).

(** ** General: general/impl.h:64-152 *)
(** panelA with its links, 112-120 *)
Definition ga_panel (r k : Z) : panel :=
  let p := fresh_panel (mA k) 0 (nrt DA r Row) in
  if t_own Q DA r Col k =? co Col r then set_tiles Q DA Row r 0 (lnt DC r Row) (fun i => DA_ r i (t_gl Q DA r Col (t_loc Q DA r Col k))) p else p.
(** panelB with its links, 121-129 *)
Definition gb_panel (r k : Z) : panel :=
  let p := fresh_panel (mB k) 0 (nrt DB r Col) in
  if t_own Q DB r Row k =? co Row r then set_tiles Q DB Col r 0 (lnt DC r Col) (fun j => DB_ r (t_gl Q DB r Row (t_loc Q DB r Row k)) j) p else p.
(** core loop, 135-147 *)
Definition g_jobs (r k : Z) (ap bp : panel) : list (tjob (mat K)) :=
  flat_map (fun li => flat_map (fun lj => let i := t_gl Q DC r Row li in let j := t_gl Q DC r Col lj in
    [jgemm kn NoTrans NoTrans (szt DC r Row i) (szt DC r Col j) (szt DA r Col k) al (p_tile r ap (t_gl Q DA r Row li)) (p_tile r bp (t_gl Q DB r Col lj)) (if k =? 0 then be else f1) (DC_ r i j)])
    (zrange 0 (lnt DC r Col))) (zrange 0 (lnt DC r Row)).
(** one iteration, 97-151 *)
Definition g_step (r k : Z) : list (act (mat K)) :=
  panel_broadcast P Q DA Row r (t_own Q DA r Col k) (ga_panel r k) ++
  panel_broadcast P Q DB Col r (t_own Q DB r Row k) (gb_panel r k) ++
  map ALoc (g_jobs r k (ga_panel r k) (gb_panel r k)).
(** 79-88: A has no columns *)
Definition g_scale (r : Z) : list (act (mat K)) :=
  if feq_dec K be f1 then [] else
  map ALoc (flat_map (fun lj => flat_map (fun li => [jscal be (DC_ r (t_gl Q DC r Row li) (t_gl Q DC r Col lj))]) (zrange 0 (lnt DC r Row))) (zrange 0 (lnt DC r Col))).
Definition dist_general (r : Z) : list (act (mat K)) :=
  if m_empty DC r then [] else
  if nrt DA r Col =? 0 then g_scale r else
  flat_map (g_step r) (zrange 0 (nrt DA r Col)).

(** ** Hermitian: hermitian/impl.h:98-211 *)
(** a_panel with its range and links, 143-158 *)
Definition ha_panel (r k : Z) : panel :=
  let p := fresh_panel (mA k) k (nrt DA r Row) in
  if co Col r =? t_own Q DA r Col k then set_tiles Q DA Row r (t_nx Q DA r Row k) (lnt DA r Row) (fun i => DA_ r i (t_gl Q DA r Col (t_nx Q DA r Col k))) p else p.
(** b_panel, 160-166 *)
Definition hb_panel (r k : Z) : panel :=
  let p := fresh_panel (mB k) 0 (nrt DB r Col) in
  if co Row r =? t_own Q DA r Row k then set_tiles Q DB Col r 0 (lnt DB r Col) (fun j => DB_ r (t_gl Q DB r Row (t_nx Q DC r Row k)) j) p else p.
Definition hc_panel (r k : Z) : panel := fresh_panel (mC k) 0 (nrt DC r Col).
(** iterate_range2d(begin, end) is column major (C12) *)
Definition range2d (i0 i1 j0 j1 : Z) : list (Z * Z) := flat_map (fun j => map (fun i => (i, j)) (zrange i0 i1)) (zrange j0 j1).
(** 168-170 *)
Definition h_diag (b : F K) (r k : Z) (ap bp : panel) : list (tjob (mat K)) :=
  map (fun l => let i := t_gl Q DC r Row (fst l) in let j := t_gl Q DC r Col (snd l) in
    jhemm kn Left Lower (szt DC r Row i) (szt DC r Col j) al (p_tile r ap (t_gl Q DA r Row (fst l))) (p_tile r bp (t_gl Q DB r Col (snd l))) b (DC_ r i j))
    (range2d (t_nx Q DC r Row k) (t_nx Q DC r Row (k + 1)) 0 (lnt DC r Col)).
(** set0(c_panel) and the updates below the diagonal, 172-183 *)
Definition h_lower (b : F K) (r k : Z) (ap bp cp : panel) : list (tjob (mat K)) :=
  map (fun lj => jset0 (p_int r cp (t_gl Q DC r Col lj))) (zrange (t_nx Q DC r Col (p_lo cp)) (t_nx Q DC r Col (p_hi cp))) ++
  flat_map (fun l => let i := t_gl Q DC r Row (fst l) in let j := t_gl Q DC r Col (snd l) in let a := p_tile r ap (t_gl Q DA r Row (fst l)) in
    [jgemm kn NoTrans NoTrans (szt DC r Row i) (szt DC r Col j) (szt DA r Col k) al a (p_tile r bp (t_gl Q DB r Col (snd l))) b (DC_ r i j);
     jgemm kn ConjTrans NoTrans (szt DA r Col k) (szt DC r Col j) (szt DA r Row (t_gl Q DA r Row (fst l))) al a (DB_ r (t_gl Q DB r Row (fst l)) (t_gl Q DB r Col (snd l))) f1 (p_int r cp j)])
    (range2d (t_nx Q DC r Row (k + 1)) (lnt DC r Row) 0 (lnt DC r Col)).
(** 185-196 *)
Definition h_reduce (r k : Z) (cp : panel) : list (act (mat K)) :=
  if P =? 1 then [] else
  flat_map (fun l => let t := p_int r cp (t_gl Q DC r Col l) in let c := cm Col (co Col r) in let root := mk Q Col (co Col r) (t_own Q DA r Row k) in
    [ACom (if co Row r =? t_own Q DA r Row k then CAct c (SReduce root) (Some t) (Some t) (members P Q c) (fun vs _ => fun i j => fold_right (fun (A : mat K) s => fadd (A i j) s) f0 vs)
           else CAct c (SReduce root) (Some t) None [] (fun _ v => v))])
    (zrange (t_nx Q DC r Col (p_lo cp)) (t_nx Q DC r Col (p_hi cp))).
(** 197-201 *)
Definition h_add (r k : Z) (cp : panel) : list (tjob (mat K)) :=
  map (fun l => jadd f1 (p_tile r cp (t_gl Q DC r Col (snd l))) (DC_ r (t_gl Q DC r Row (fst l)) (t_gl Q DC r Col (snd l))))
    (range2d (t_nx Q DC r Row k) (t_nx Q DC r Row (k + 1)) 0 (lnt DC r Col)).
(** one iteration, 127-210; beta_ is beta in the first iteration and 1 afterwards (205) *)
Definition h_step (r k : Z) : list (act (mat K)) :=
  let b := if k =? 0 then be else f1 in
  let ap := ha_panel r k in let bp := hb_panel r k in let cp := hc_panel r k in
  panel_broadcast P Q DA Row r (t_own Q DA r Col k) ap ++
  panel_broadcast P Q DB Col r (t_own Q DA r Row k) bp ++
  map ALoc (h_diag b r k ap bp) ++
  if k <? nrt DA r Col - 1 then
    map ALoc (h_lower b r k ap bp cp) ++ h_reduce r k cp ++ map ALoc (h_add r k cp)
  else [].
Definition dist_hermitian (r : Z) : list (act (mat K)) :=
  if m_empty DB r then [] else flat_map (h_step r) (zrange 0 (nrt DA r Col)).
End model.
