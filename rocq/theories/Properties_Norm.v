(** * C41: max norm. *)
From Coq Require Import ZArith Lia List Bool Permutation.
From Verif Require Import CInt Loop DistModel DistSpec DistProofs DistBuilt DistThms DistGrid PanelProofs Properties_Panel PermAxis NormModel.
Import ListNotations.
Local Open Scope Z_scope.

(** ** Specification *)
(** element (x, y) of a distributed matrix with mb x nb tiles: M r are the tiles of rank r of a grid with Q columns *)
Definition matrix_element {V} (Q mb nb : Z) (L : coord -> layout) (M : Z -> pair_Z -> pair_Z -> V) (x y : Z) : V :=
  let pr := owner (L Row) x in let pc := owner (L Col) y in
  M (rk Q pr pc) (count (tile_owned (L Row) pr) (tile_of (L Row) x), count (tile_owned (L Col) pc) (tile_of (L Col) y)) (x mod mb, y mod nb).
(** v is the maximum of the values f x y over the positions in S *)
Definition is_maximum {NT} (le : NT -> NT -> Prop) (S : Z -> Z -> Prop) (f : Z -> Z -> NT) (v : NT) : Prop :=
  (forall x y, S x y -> le (f x y) v) /\ exists x y, S x y /\ v = f x y.
(** < is a total order whose smallest value on absolute values is 0 *)
Record norm_order {V NT} (vabs : V -> NT) (nzero : NT) (lt : NT -> NT -> bool) : Prop := {
  no_trans : forall a b c, lt b a = false -> lt c b = false -> lt c a = false;
  no_anti : forall a b, lt b a = false -> lt a b = false -> a = b;
  no_asym : forall a b, lt a b = true -> lt b a = false;
  no_zero : forall x, lt (vabs x) nzero = false }.
Definition leq {NT} (lt : NT -> NT -> bool) (a b : NT) : Prop := lt b a = false.

Section order.
Context {V NT : Type} (vabs : V -> NT) (nzero : NT) (lt : NT -> NT -> bool).
Hypothesis O : norm_order vabs nzero lt.
Local Notation le := (leq lt).
Lemma le_refl : forall a, le a a.
Proof. intros a. unfold leq. destruct (lt a a) eqn:E; [|reflexivity]. pose proof (no_asym _ _ _ O a a E). congruence. Qed.
Lemma le_tr : forall a b c, le a b -> le b c -> le a c. Proof. intros a b c. apply (no_trans _ _ _ O). Qed.
Lemma max_l : forall a b, le a (nmax lt a b). Proof. intros a b. unfold nmax. destruct (lt a b) eqn:E; [apply (no_asym _ _ _ O); exact E|apply le_refl]. Qed.
Lemma max_r : forall a b, le b (nmax lt a b). Proof. intros a b. unfold nmax. destruct (lt a b) eqn:E; [apply le_refl|exact E]. Qed.
Lemma max_or : forall a b, nmax lt a b = a \/ nmax lt a b = b. Proof. intros a b. unfold nmax. destruct (lt a b); auto. Qed.

(** v bounds the list and is 0 or one of its values *)
Lemma fold_max : forall {X} (f : X -> NT) (p : X -> bool) l v0,
  let v := fold_left (fun v e => if p e then nmax lt v (f e) else v) l v0 in
  le v0 v /\ (forall e, In e l -> p e = true -> le (f e) v) /\ (v = v0 \/ exists e, In e l /\ p e = true /\ v = f e).
Proof.
  intros X f p l. induction l as [|x l IH]; intros v0; cbn [fold_left].
  - split; [apply le_refl|]. split; [intros e []|left; reflexivity].
  - destruct (IH (if p x then nmax lt v0 (f x) else v0)) as (A & B & C). cbv zeta in *. split; [|split].
    + destruct (p x); [eapply le_tr; [apply max_l|exact A]|exact A].
    + intros e [<-|I] Pe; [rewrite Pe in A |- *; eapply le_tr; [apply max_r|exact A]|apply B; assumption].
    + destruct C as [C|(e & I & Pe & C)]; [|right; exists e; split; [right; exact I|auto]].
      destruct (p x) eqn:Px; [|left; exact C]. destruct (max_or v0 (f x)) as [E|E]; [left; congruence|right; exists x; split; [left; reflexivity|split; congruence]].
Qed.
Lemma fold_nmax : forall {X} (f : X -> NT) l v0,
  let v := fold_left (fun v e => nmax lt v (f e)) l v0 in
  le v0 v /\ (forall e, In e l -> le (f e) v) /\ (v = v0 \/ exists e, In e l /\ v = f e).
Proof.
  intros X f l v0. destruct (fold_max f (fun _ => true) l v0) as (A & B & C). cbv zeta in *. split; [exact A|]. split; [intros; apply B; auto|].
  destruct C as [C|(e & I & _ & C)]; [left; exact C|right; exists e; auto].
Qed.
Lemma in_range2d : forall m n i j, In (i, j) (range2d_list m n) <-> 0 <= i < m /\ 0 <= j < n.
Proof.
  intros m n i j. unfold range2d_list. rewrite in_flat_map. split.
  - intros (y & Iy & I). apply in_map_iff in I as (x & E & Ix). apply in_zrange in Iy, Ix. inversion E; subst. auto.
  - intros [A B]. exists j. split; [apply in_zrange; exact B|]. apply in_map_iff. exists i. split; [reflexivity|apply in_zrange; exact A].
Qed.
Lemma max_element_spec : forall l, let v := match l with [] => nzero | _ => max_element nzero lt l end in
  (forall x, In x l -> le x v) /\ (v = nzero \/ In v l).
Proof.
  intros [|a l]; cbn zeta; [split; [intros x []|left; reflexivity]|]. cbn [max_element].
  destruct (fold_nmax (fun x : NT => x) l a) as (A & B & C). cbv zeta in *. change (fold_left (fun v e : NT => nmax lt v e) l a) with (fold_left (nmax lt) l a) in *. split.
  - intros x [<-|I]; [exact A|apply B; exact I].
  - right. destruct C as [C|(e & I & C)]; [left; symmetry; exact C|right; rewrite C; exact I].
Qed.
Lemma reduction_spec : forall l v, reduction lt l v -> (forall x, In x l -> le x v) /\ In v l.
Proof.
  intros l v R. induction R as [x|l1 l2 a b R1 [A1 A2] R2 [B1 B2]|l l' x P R [A1 A2]].
  - split; [intros y [<-|[]]; apply le_refl|left; reflexivity].
  - split.
    + intros x I. apply in_app_iff in I as [I|I]; [eapply le_tr; [apply A1; exact I|apply max_l]|eapply le_tr; [apply B1; exact I|apply max_r]].
    + apply in_app_iff. destruct (max_or a b) as [-> | ->]; auto.
  - split; [intros y I; apply A1; apply (Permutation_in _ (Permutation_sym P)); exact I|apply (Permutation_in _ P); exact A2].
Qed.
End order.

(** ** One axis *)
Section axis.
Variables (r : Z) (L : layout) (a : axis).
Hypothesis M : models r L a.
Hypotheses (OFF : l_off L = 0) (BT : l_block L = l_tile L).
Local Notation nb := (l_tile L).
Lemma to_local : forall x, 0 <= x < l_size L -> owner L x = r ->
  let lt := count (tile_owned L r) (tile_of L x) in
  0 <= lt < ax_local_nr_tiles a /\ ax_global_tile_from_local_tile a lt = x / nb /\ 0 <= x mod nb < ax_local_tile_size_of a lt.
Proof using M OFF BT.
  intros x Lx E. cbv zeta. pose proof (nb_pos _ _ _ M) as NB. rewrite (tile_of_div _ _ _ M OFF). rewrite (own_tile _ _ _ M OFF) in E.
  pose proof (Z.div_mod x nb ltac:(lia)). pose proof (Z.mod_pos_bound x nb NB). pose proof (Z.div_pos x nb ltac:(lia) NB).
  assert (LT : 0 <= x / nb < ax_nr_tiles a) by (apply (nt_iff _ _ _ M OFF); lia).
  pose proof (count_bounds (tile_owned L r) (x / nb) ltac:(lia)). pose proof (count_lt (tile_owned L r) (x / nb) (ax_nr_tiles a) ltac:(lia) ltac:(apply Z.eqb_eq; exact E)).
  rewrite <- (T_local_nr_tiles _ _ _ M) in *. split; [lia|].
  pose proof (T_global_tile_inv _ _ _ M (x / nb) LT E) as G. rewrite (T_local_tile _ _ _ M) in G by lia. rewrite E, Z.eqb_refl in G. split; [exact G|].
  rewrite (T_local_tile_size _ _ _ M (count (tile_owned L r) (x / nb)) ltac:(lia)), G. rewrite (g_size _ _ _ M OFF BT). lia.
Qed.
Lemma from_local : forall lt e, 0 <= lt < ax_local_nr_tiles a -> 0 <= e < ax_local_tile_size_of a lt ->
  let x := ax_global_tile_from_local_tile a lt * nb + e in
  0 <= x < l_size L /\ owner L x = r /\ x / nb = ax_global_tile_from_local_tile a lt /\ x mod nb = e /\ count (tile_owned L r) (tile_of L x) = lt.
Proof using M OFF BT.
  intros lt e Ll Le. cbv zeta. pose proof (nb_pos _ _ _ M) as NB. destruct (T_global_tile _ _ _ M lt Ll) as (A & B & C). cbv zeta in *.
  rewrite (T_local_tile_size _ _ _ M) in Le by lia. rewrite (g_size _ _ _ M OFF BT) in Le. set (g := ax_global_tile_from_local_tile a lt) in *.
  assert (DV : (g * nb + e) / nb = g) by (rewrite Z.add_comm, Z.div_add, Z.div_small by lia; lia).
  assert (MV : (g * nb + e) mod nb = e) by (rewrite Z.add_comm, Z.mod_add, Z.mod_small by lia; lia).
  split; [nia|]. split; [rewrite (own_tile _ _ _ M OFF), DV; exact B|]. split; [exact DV|]. split; [exact MV|]. rewrite (tile_of_div _ _ _ M OFF), DV. exact C.
Qed.
End axis.

(** ** C41 *)
(** the positions that the norm refers to *)
Definition referenced (u : uplo) (m n x y : Z) : Prop := 0 <= x < m /\ 0 <= y < n /\ (u = Lower -> y <= x).

(** C41.  On every P x Q grid and distribution (one tile per block) of an m x n matrix, and whatever order MPI combines the
    contributions in: on the designated rank, max_norm gives the maximum absolute value of all the elements (General), or of the
    elements on and below the diagonal (Lower, square matrix with square tiles); 0 if the matrix is empty. *)
Theorem C41_max_norm : forall (V NT : Type) (vabs : V -> NT) nzero lt, norm_order vabs nzero lt ->
  forall P Q m n mb nb src D, distributed P Q (m, n) (mb, nb) (mb, nb) src (0, 0) D ->
  forall (M : Z -> nmat) rank u, 0 <= fst rank < P -> 0 <= snd rank < Q -> (u = Lower -> m = n /\ mb = nb) ->
  forall v, max_norm vabs nzero lt P Q D M rank u (rk Q (fst rank) (snd rank)) v ->
  if (m =? 0) || (n =? 0) then v = nzero
  else is_maximum (leq lt) (referenced u m n) (fun x y => vabs (matrix_element Q mb nb (arg_layout (m, n) (mb, nb) (mb, nb) (P, Q) src (0, 0)) M x y)) v.
Proof.
  intros V NT vabs nzero lt O P Q m n mb nb src D DI M rank u Lr Lc SQ v RUN.
  pose proof (distributed_axes _ _ _ _ _ _ _ _ DI) as GA. set (L := arg_layout (m, n) (mb, nb) (mb, nb) (P, Q) src (0, 0)) in *. destruct GA as [HP HQ GM GG GN].
  pose proof (GM Row 0 ltac:(cbn; lia)) as M0. pose proof (GM Col 0 ltac:(cbn; lia)) as M0'.
  assert (EM : isEmpty2 (ax_size (D Row 0), ax_size (D Col 0)) = (m =? 0) || (n =? 0)).
  { pose proof (ms _ _ _ M0) as E1. pose proof (ms _ _ _ M0') as E2. change (l_size (L Row)) with m in E1. change (l_size (L Col)) with n in E2. rewrite <- E1, <- E2. reflexivity. }
  assert (MN : 0 <= m /\ 0 <= n). { destruct DI as (_ & _ & X & _). destruct (X Row) as (X1 & _). destruct (X Col) as (X2 & _). cbn in X1, X2. lia. }
  destruct ((m =? 0) || (n =? 0)) eqn:EMP.
  { inversion RUN; [reflexivity|congruence|congruence]. }
  apply orb_false_iff in EMP as [Nm Nn]. apply Z.eqb_neq in Nm, Nn.
  inversion RUN as [E0|v0 E0 NU _ RED|E0 NU NR]; [congruence| |congruence]. subst v0. clear RUN EM E0.
  destruct (reduction_spec vabs nzero lt O _ _ RED) as [UB IN]. clear RED.
  set (d q := Dist (D Row (co Q Row q)) (D Col (co Q Col q))) in *.
  set (f x y := vabs (matrix_element Q mb nb L M x y)).
  (* a tile element is a matrix element *)
  assert (ELT : forall q i j ei ej, In q (ranks P Q) -> 0 <= i < ax_local_nr_tiles (D Row (co Q Row q)) -> 0 <= j < ax_local_nr_tiles (D Col (co Q Col q)) ->
      0 <= ei < ax_local_tile_size_of (D Row (co Q Row q)) i -> 0 <= ej < ax_local_tile_size_of (D Col (co Q Col q)) j ->
      let x := ax_global_tile_from_local_tile (D Row (co Q Row q)) i * mb + ei in let y := ax_global_tile_from_local_tile (D Col (co Q Col q)) j * nb + ej in
      0 <= x < m /\ 0 <= y < n /\ f x y = vabs (M q (i, j) (ei, ej))).
  { intros q i j ei ej Iq Li Lj Lei Lej. pose proof (proj1 (in_ranks P Q HP HQ q) Iq) as [Q1 Q2].
    destruct (from_local _ _ _ (GM Row _ Q1) eq_refl eq_refl i ei Li Lei) as (A1 & A2 & A3 & A4 & A5).
    destruct (from_local _ _ _ (GM Col _ Q2) eq_refl eq_refl j ej Lj Lej) as (B1 & B2 & B3 & B4 & B5). cbv zeta in *.
    change (l_tile (L Row)) with mb in *. change (l_tile (L Col)) with nb in *. change (l_size (L Row)) with m in *. change (l_size (L Col)) with n in *.
    split; [exact A1|]. split; [exact B1|]. unfold f, matrix_element. cbv zeta. rewrite A2, B2, A4, B4, A5, B5. f_equal. f_equal. apply (mk_co P Q HP HQ Row q). }
  (* every matrix element is in a tile of a rank *)
  assert (COV : forall x y, 0 <= x < m -> 0 <= y < n -> exists q i j, In q (ranks P Q) /\ 0 <= i < ax_local_nr_tiles (D Row (co Q Row q)) /\ 0 <= j < ax_local_nr_tiles (D Col (co Q Col q)) /\
      0 <= x mod mb < ax_local_tile_size_of (D Row (co Q Row q)) i /\ 0 <= y mod nb < ax_local_tile_size_of (D Col (co Q Col q)) j /\
      ax_global_tile_from_local_tile (D Row (co Q Row q)) i = x / mb /\ ax_global_tile_from_local_tile (D Col (co Q Col q)) j = y / nb /\ f x y = vabs (M q (i, j) (x mod mb, y mod nb))).
  { intros x y Lx Ly.
    assert (OX : 0 <= owner (L Row) x < P) by (rewrite <- (GG Row : _ = P); apply (T_owner _ _ _ M0 x); lia).
    assert (OY : 0 <= owner (L Col) y < Q) by (rewrite <- (GG Col : _ = Q); apply (T_owner _ _ _ M0' y); lia).
    destruct (co_mk P Q HP HQ Row (owner (L Row) x) (owner (L Col) y) OX OY) as [C1 C2]. cbn [mk other] in C1, C2.
    destruct (to_local _ _ _ (GM Row _ OX) eq_refl eq_refl x Lx eq_refl) as (A1 & A2 & A3).
    destruct (to_local _ _ _ (GM Col _ OY) eq_refl eq_refl y Ly eq_refl) as (B1 & B2 & B3). cbv zeta in *.
    change (l_tile (L Row)) with mb in *. change (l_tile (L Col)) with nb in *.
    exists (rk Q (owner (L Row) x) (owner (L Col) y)), (count (tile_owned (L Row) (owner (L Row) x)) (tile_of (L Row) x)), (count (tile_owned (L Col) (owner (L Col) y)) (tile_of (L Col) y)).
    rewrite C1, C2. split; [apply (mk_in P Q HP HQ Row); assumption|]. repeat split; try assumption; try lia. }
  assert (MBP : 0 < mb /\ 0 < nb). { destruct DI as (_ & _ & X & _). destruct (X Row) as (_ & X1 & _). destruct (X Col) as (_ & X2 & _). cbn in X1, X2. lia. }
  assert (NZ : forall S : Z -> Z -> Prop, (exists x y, S x y) -> (forall x y, S x y -> leq lt (f x y) v) -> v = nzero -> exists x y, S x y /\ v = f x y).
  { intros S (x & y & Sxy) B E. exists x, y. split; [exact Sxy|]. apply (no_anti _ _ _ O); [rewrite E; apply (no_zero _ _ _ O)|apply B; exact Sxy]. }
  assert (S0 : exists x y, referenced u m n x y) by (exists 0, 0; unfold referenced; lia).
  assert (BOTH : (forall x y, referenced u m n x y -> leq lt (f x y) v) /\ (v = nzero \/ exists x y, referenced u m n x y /\ v = f x y)).
  { apply in_map_iff in IN as (q & Eq & Iq).
    assert (UB' : forall q, In q (ranks P Q) -> leq lt (match u with Lower => local_max_L vabs nzero lt | _ => local_max_G vabs nzero lt end (d q) (M q)) v).
    { intros q' I'. apply UB. apply in_map_iff. exists q'. auto. }
    clear UB. destruct u; [| |].
    - (* Lower *)
      destruct (SQ eq_refl) as [-> ->]. split.
      + intros x y (Lx & Ly & Lo). specialize (Lo eq_refl). destruct (COV x y Lx Ly) as (p & i & j & Ip & Li & Lj & Lei & Lej & Gi & Gj & ->).
        eapply (le_tr vabs nzero lt O); [|apply (UB' p Ip)]. unfold local_max_L. cbv zeta. set (ts := flat_map _ _).
        destruct (max_element_spec vabs nzero lt O ts) as [MB _]. cbv zeta in MB.
        assert (TB : exists z, In z ts /\ leq lt (vabs (M p (i, j) (x mod nb, y mod nb))) z).
        { pose proof (Z.div_le_mono y x nb ltac:(lia) Lo) as DM.
          assert (EQ : x / nb = y / nb -> y mod nb <= x mod nb) by (intros E1; pose proof (Z.div_mod x nb ltac:(lia)); pose proof (Z.div_mod y nb ltac:(lia)); nia).
          exists (if x / nb =? y / nb then lantr_max_L vabs nzero lt (tile_size (d p) (i, j)) (M p (i, j)) else lange_max vabs nzero lt (tile_size (d p) (i, j)) (M p (i, j))). split.
          - apply in_flat_map. exists (i, j). split; [apply in_range2d; cbn; auto|]. cbn [fst snd d d_row d_col]. rewrite Gi, Gj. destruct (Z.ltb_spec (x / nb) (y / nb)); [lia|]. left. reflexivity.
          - destruct (Z.eqb_spec (x / nb) (y / nb)) as [E1|E1].
            + unfold lantr_max_L. destruct (fold_max vabs nzero lt O (fun e => vabs (M p (i, j) e)) (fun e => snd e <=? fst e) (range2d_list (fst (tile_size (d p) (i, j))) (snd (tile_size (d p) (i, j)))) nzero) as (_ & FB & _).
              apply (FB (x mod nb, y mod nb)); [apply in_range2d; cbn; auto|cbn; apply Z.leb_le; apply EQ; exact E1].
            + unfold lange_max. destruct (fold_nmax vabs nzero lt O (fun e => vabs (M p (i, j) e)) (range2d_list (fst (tile_size (d p) (i, j))) (snd (tile_size (d p) (i, j)))) nzero) as (_ & FB & _).
              apply (FB (x mod nb, y mod nb)). apply in_range2d. cbn. auto. }
        destruct TB as (z & Iz & Lz). eapply (le_tr vabs nzero lt O); [exact Lz|]. apply MB. exact Iz.
      + rewrite <- Eq. unfold local_max_L. cbv zeta. set (ts := flat_map _ _). destruct (max_element_spec vabs nzero lt O ts) as [_ [E|MI]]; [left; exact E|]. cbv zeta in MI.
        set (w := match ts with [] => nzero | _ => _ end) in *. clearbody w. unfold ts in MI. apply in_flat_map in MI as ((i & j) & Ir & MI). apply in_range2d in Ir as [Li Lj]. cbn [fst snd d d_row d_col local_nr_tiles] in *.
        destruct (Z.ltb_spec (ax_global_tile_from_local_tile (D Row (co Q Row q)) i) (ax_global_tile_from_local_tile (D Col (co Q Col q)) j)) as [LT|LT]; [destruct MI|].
        destruct MI as [MI|[]]. destruct (Z.eqb_spec (ax_global_tile_from_local_tile (D Row (co Q Row q)) i) (ax_global_tile_from_local_tile (D Col (co Q Col q)) j)) as [E1|E1].
        * unfold lantr_max_L in MI. destruct (fold_max vabs nzero lt O (fun e => vabs (M q (i, j) e)) (fun e => snd e <=? fst e) (range2d_list (fst (tile_size (d q) (i, j))) (snd (tile_size (d q) (i, j)))) nzero) as (_ & _ & FA). cbv zeta in FA.
          destruct FA as [FA|((ei & ej) & Ie & Pe & FA)]; [left; rewrite <- MI; exact FA|right]. apply in_range2d in Ie as [Lei Lej]. cbn [fst snd tile_size d d_row d_col] in *. apply Z.leb_le in Pe.
          destruct (ELT q i j ei ej Iq Li Lj Lei Lej) as (X1 & Y1 & FE). cbv zeta in *.
          exists (ax_global_tile_from_local_tile (D Row (co Q Row q)) i * nb + ei), (ax_global_tile_from_local_tile (D Col (co Q Col q)) j * nb + ej). split; [repeat split; try lia; intros _; rewrite E1; lia|]. rewrite FE, <- MI. exact FA.
        * unfold lange_max in MI. destruct (fold_nmax vabs nzero lt O (fun e => vabs (M q (i, j) e)) (range2d_list (fst (tile_size (d q) (i, j))) (snd (tile_size (d q) (i, j)))) nzero) as (_ & _ & FA). cbv zeta in FA.
          destruct FA as [FA|((ei & ej) & Ie & FA)]; [left; rewrite <- MI; exact FA|right]. apply in_range2d in Ie as [Lei Lej]. cbn [fst snd tile_size d d_row d_col] in *.
          destruct (ELT q i j ei ej Iq Li Lj Lei Lej) as (X1 & Y1 & FE). cbv zeta in *.
          pose proof (proj1 (in_ranks P Q HP HQ q) Iq) as [Q1 Q2].
          assert (TE : ax_local_tile_size_of (D Col (co Q Col q)) j <= nb) by (rewrite (T_local_tile_size _ _ _ (GM Col _ Q2)) by exact Lj; rewrite (g_size _ _ _ (GM Col _ Q2) eq_refl eq_refl); change (l_tile (L Col)) with nb; lia).
          exists (ax_global_tile_from_local_tile (D Row (co Q Row q)) i * nb + ei), (ax_global_tile_from_local_tile (D Col (co Q Col q)) j * nb + ej). split; [|rewrite FE, <- MI; exact FA].
          split; [exact X1|]. split; [exact Y1|]. intros _. nia.
    - congruence.
    - (* General *)
      split.
      + intros x y (Lx & Ly & _). destruct (COV x y Lx Ly) as (p & i & j & Ip & Li & Lj & Lei & Lej & Gi & Gj & ->).
        eapply (le_tr vabs nzero lt O); [|apply (UB' p Ip)]. unfold local_max_G. cbv zeta. set (ts := map _ _).
        destruct (max_element_spec vabs nzero lt O ts) as [MB _]. cbv zeta in MB.
        eapply (le_tr vabs nzero lt O); [|apply (MB (lange_max vabs nzero lt (tile_size (d p) (i, j)) (M p (i, j)))); apply in_map_iff; exists (i, j); split; [reflexivity|apply in_range2d; cbn; auto]].
        unfold lange_max. destruct (fold_nmax vabs nzero lt O (fun e => vabs (M p (i, j) e)) (range2d_list (fst (tile_size (d p) (i, j))) (snd (tile_size (d p) (i, j)))) nzero) as (_ & FB & _).
        apply (FB (x mod mb, y mod nb)). apply in_range2d. cbn. auto.
      + rewrite <- Eq. unfold local_max_G. cbv zeta. set (ts := map _ _). destruct (max_element_spec vabs nzero lt O ts) as [_ [E|MI]]; [left; exact E|]. cbv zeta in MI.
        set (w := match ts with [] => nzero | _ => _ end) in *. clearbody w. unfold ts in MI. apply in_map_iff in MI as ((i & j) & MI & Ir). apply in_range2d in Ir as [Li Lj]. cbn [fst snd d d_row d_col local_nr_tiles] in *.
        unfold lange_max in MI. destruct (fold_nmax vabs nzero lt O (fun e => vabs (M q (i, j) e)) (range2d_list (fst (tile_size (d q) (i, j))) (snd (tile_size (d q) (i, j)))) nzero) as (_ & _ & FA). cbv zeta in FA.
        destruct FA as [FA|((ei & ej) & Ie & FA)]; [left; rewrite <- MI; exact FA|right]. apply in_range2d in Ie as [Lei Lej]. cbn [fst snd tile_size d d_row d_col] in *.
        destruct (ELT q i j ei ej Iq Li Lj Lei Lej) as (X1 & Y1 & FE). cbv zeta in *.
        exists (ax_global_tile_from_local_tile (D Row (co Q Row q)) i * mb + ei), (ax_global_tile_from_local_tile (D Col (co Q Col q)) j * nb + ej). split; [repeat split; try lia; discriminate|]. rewrite FE, <- MI. exact FA. }
  destruct BOTH as [B1 B2]. split; [exact B1|]. destruct B2 as [B2|B2]; [apply (NZ _ S0 B1 B2)|exact B2].
Qed.

Lemma reduction_exists : forall {NT} (lt : NT -> NT -> bool) l, l <> [] -> exists v, reduction lt l v.
Proof.
  intros NT lt l. induction l as [|x l IH]; intros H; [congruence|]. destruct l as [|y l]; [exists x; constructor|].
  destruct (IH ltac:(discriminate)) as (v & R). exists (nmax lt x v). apply (red_op lt [x] (y :: l)); [constructor|exact R].
Qed.
(** every rank gets a result if uplo is not Upper (which the code reports as not implemented) *)
Theorem C41_result_exists : forall (V NT : Type) (vabs : V -> NT) nzero lt P Q (D : coord -> Z -> axis) (M : Z -> nmat) rank u r,
  0 < P -> 0 < Q -> u <> Upper -> exists v, max_norm vabs nzero lt P Q D M rank u r v.
Proof.
  intros V NT vabs nzero lt P Q D M rank u r HP HQ NU. destruct (isEmpty2 (ax_size (D Row 0), ax_size (D Col 0))) eqn:E; [exists nzero; apply mn_empty; exact E|].
  destruct (Z.eq_dec r (rk Q (fst rank) (snd rank))) as [Er|Er]; [|eexists; apply mn_other; assumption].
  destruct (reduction_exists lt (map (fun q => (match u with Lower => local_max_L vabs nzero lt | _ => local_max_G vabs nzero lt end) (Dist (D Row (co Q Row q)) (D Col (co Q Col q))) (M q)) (ranks P Q))) as (v & R).
  { intros H. apply map_eq_nil in H. pose proof (mk_in P Q HP HQ Row 0 0 ltac:(cbn; lia) ltac:(cbn; lia)) as I. rewrite H in I. destruct I. }
  exists v. apply mn_root; assumption.
Qed.

(** ** A concrete case: integers, a 5 x 5 matrix with tiles of 2 on a 2 x 2 grid with source rank (1, 0) *)
Lemma Z_order : norm_order Z.abs 0 Z.ltb.
Proof.
  constructor.
  - intros a b c H1 H2. apply Z.ltb_ge in H1, H2. apply Z.ltb_ge. lia.
  - intros a b H1 H2. apply Z.ltb_ge in H1, H2. lia.
  - intros a b H. apply Z.ltb_lt in H. apply Z.ltb_ge. lia.
  - intros x. apply Z.ltb_ge. lia.
Qed.
Definition ex_norm_axis (rc : coord) (p : Z) : axis :=
  match dist_ctor (5, 5) (2, 2) (2, 2) (2, 2) (match rc with Row => (p, 0) | Col => (0, p) end) (1, 0) (0, 0) with Ok d => get rc d | _ => default_axis end.
Lemma C41_example_distributed : distributed 2 2 (5, 5) (2, 2) (2, 2) (1, 0) (0, 0) ex_norm_axis.
Proof.
  split; [lia|]. split; [lia|]. split.
  - intros rc. destruct rc; cbn -[i32_max]; unfold i32_max; repeat split; try lia; apply Z.divide_refl.
  - intros pr pc L1 L2. assert (E1 : pr = 0 \/ pr = 1) by lia. assert (E2 : pc = 0 \/ pc = 1) by lia.
    destruct E1 as [-> | ->]; destruct E2 as [-> | ->]; eexists; (split; [vm_compute; reflexivity|intros []; vm_compute; reflexivity]).
Qed.
(** element (x, y) is y^2 - x: the largest absolute value is 16 at (0, 4); on and below the diagonal it is 12 at (4, 4) *)
Definition ex_norm_mat (r : Z) : nmat (V := Z) := fun t e =>
  let x := (fst t * 2 + (r / 2 + 1) mod 2) * 2 + fst e in let y := (snd t * 2 + r mod 2) * 2 + snd e in y * y - x.
Example C41_example : forall rank, In rank [(0, 0); (1, 0)] ->
  (forall v, max_norm Z.abs 0 Z.ltb 2 2 ex_norm_axis ex_norm_mat rank General (rk 2 (fst rank) (snd rank)) v -> v = 16) /\
  (forall v, max_norm Z.abs 0 Z.ltb 2 2 ex_norm_axis ex_norm_mat rank Lower (rk 2 (fst rank) (snd rank)) v -> v = 12).
Proof.
  intros rank IR. assert (R1 : 0 <= fst rank < 2 /\ 0 <= snd rank < 2) by (destruct IR as [<-|[<-|[]]]; cbn; lia). destruct R1 as [R1 R2].
  assert (EV : forall x y, 0 <= x < 5 -> 0 <= y < 5 -> matrix_element 2 2 2 (arg_layout (5, 5) (2, 2) (2, 2) (2, 2) (1, 0) (0, 0)) ex_norm_mat x y = y * y - x).
  { intros x y Lx Ly. assert (X : x = 0 \/ x = 1 \/ x = 2 \/ x = 3 \/ x = 4) by lia. assert (Y : y = 0 \/ y = 1 \/ y = 2 \/ y = 3 \/ y = 4) by lia.
    destruct X as [-> | [-> | [-> | [-> | ->]]]]; destruct Y as [-> | [-> | [-> | [-> | ->]]]]; vm_compute; reflexivity. }
  split; intros v RUN.
  - pose proof (C41_max_norm Z Z Z.abs 0 Z.ltb Z_order 2 2 5 5 2 2 (1, 0) _ C41_example_distributed ex_norm_mat rank General R1 R2 ltac:(discriminate) v RUN) as [B (x & y & (Sx & Sy & _) & E)].
    rewrite EV in E by lia. specialize (B 0 4 ltac:(unfold referenced; lia || (repeat split; lia || discriminate))). rewrite EV in B by lia. unfold leq in B. apply Z.ltb_ge in B. nia.
  - pose proof (C41_max_norm Z Z Z.abs 0 Z.ltb Z_order 2 2 5 5 2 2 (1, 0) _ C41_example_distributed ex_norm_mat rank Lower R1 R2 ltac:(auto) v RUN) as [B (x & y & (Sx & Sy & Lo) & E)]. specialize (Lo eq_refl).
    rewrite EV in E by lia. specialize (B 4 4 ltac:(unfold referenced; lia)). rewrite EV in B by lia. unfold leq in B. apply Z.ltb_ge in B. nia.
Qed.

(** ** Assumptions *)
Print Assumptions C41_max_norm.
Print Assumptions C41_result_exists.
