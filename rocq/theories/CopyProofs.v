(** * Copy with redistribution: every message has its receive. *)
From Coq Require Import ZArith Lia List Bool Permutation.
From Verif Require Import CInt Loop DistModel DistSpec DistProofs DistBuilt DistThms DistGrid PanelProofs PermAxis NormModel Properties_Norm CopyModel.
Import ListNotations.
Local Open Scope Z_scope.

Lemma filter_map_comm : forall {A B} (g : A -> B) p l, map g (filter (fun x => p (g x)) l) = filter p (map g l).
Proof. intros A B g p l. induction l as [|x l IH]; [reflexivity|]. cbn. destruct (p (g x)); cbn; rewrite IH; reflexivity. Qed.
Lemma filter_filter : forall {A} (p q : A -> bool) l, filter p (filter q l) = filter (fun x => q x && p x) l.
Proof. intros A p q l. induction l as [|x l IH]; [reflexivity|]. cbn. destruct (q x); cbn; [destruct (p x); cbn|]; rewrite IH; reflexivity. Qed.
Lemma filter_flat_map : forall {A B} p (f : A -> list B) l, filter p (flat_map f l) = flat_map (fun x => filter p (f x)) l.
Proof. intros A B p f l. induction l as [|x l IH]; [reflexivity|]. cbn. rewrite filter_app, IH. reflexivity. Qed.
Lemma map_flat_map : forall {A B C} (g : B -> C) (f : A -> list B) l, map g (flat_map f l) = flat_map (fun x => map g (f x)) l.
Proof. intros A B C g f l. induction l as [|x l IH]; [reflexivity|]. cbn. rewrite map_app, IH. reflexivity. Qed.
Lemma filter_ext_in' : forall {A} (p q : A -> bool) l, (forall x, In x l -> p x = q x) -> filter p l = filter q l.
Proof. intros A p q l H. induction l as [|x l IH]; [reflexivity|]. cbn. rewrite (H x (or_introl eq_refl)), IH; [reflexivity|]. intros y Iy. apply H. right. exact Iy. Qed.
Lemma flat_map_single : forall {A B} (p : A -> bool) (f : A -> B) l, flat_map (fun x => if p x then [] else [f x]) l = map f (filter (fun x => negb (p x)) l).
Proof. intros A B p f l. induction l as [|x l IH]; [reflexivity|]. cbn. destruct (p x); cbn; rewrite IH; reflexivity. Qed.
Lemma filter_perm : forall {A} (p : A -> bool) l l', Permutation l l' -> Permutation (filter p l) (filter p l').
Proof. intros A p l l' H. induction H; cbn; repeat match goal with |- context [p ?x] => destruct (p x) end; eauto using Permutation. Qed.

Lemma NoDup_app_iff' : forall {A} (a b : list A), NoDup a -> NoDup b -> (forall x, In x a -> In x b -> False) -> NoDup (a ++ b).
Proof.
  intros A a b Ha Hb H. induction Ha as [|x a NI Ha IH]; [exact Hb|]. cbn. constructor.
  - intros I. apply in_app_iff in I as [I|I]; [contradiction|]. apply (H x); [left; reflexivity|exact I].
  - apply IH. intros y I1 I2. apply (H y); [right; exact I1|exact I2].
Qed.
Lemma pair_eqb_eq : forall a b, pair_eqb a b = true <-> a = b.
Proof. intros [a a'] [b b']. unfold pair_eqb. cbn. rewrite andb_true_iff, !Z.eqb_eq. split; [intros [-> ->]; reflexivity|intros E; inversion E; auto]. Qed.
Lemma index_of_in : forall x l, In x l -> exists k, index_of x l = Some k /\ nth_error l k = Some x.
Proof.
  intros x l. induction l as [|y l IH]; [intros []|]. intros I. cbn [index_of]. destruct (pair_eqb x y) eqn:E.
  - apply pair_eqb_eq in E as ->. exists O. split; reflexivity.
  - destruct I as [->|I]; [rewrite (proj2 (pair_eqb_eq x x) eq_refl) in E; discriminate|]. destruct (IH I) as (k & -> & N). exists (S k). split; [reflexivity|exact N].
Qed.

(** the tiles of a process grid position, in column-major order *)
Lemma range2d_filter : forall (p q : Z -> bool) m n,
  filter (fun ij => p (fst ij) && q (snd ij)) (range2d_list m n) = flat_map (fun j => map (fun i => (i, j)) (filter p (zrange 0 m))) (filter q (zrange 0 n)).
Proof.
  intros p q m n. unfold range2d_list. rewrite filter_flat_map, flat_map_filter. apply flat_map_ext_in. intros j _.
  rewrite <- filter_map_comm. cbn [fst snd]. destruct (q j).
  - f_equal. apply filter_ext_in'. intros. apply andb_true_r.
  - rewrite (filter_ext_in' _ (fun _ => false)); [|intros; apply andb_false_r]. induction (zrange 0 m); [reflexivity|assumption].
Qed.

Section one.
Variables P Q : Z.
Variable Ls : coord -> layout.
Variable D : coord -> Z -> axis.
Variable nt : coord -> Z.
Hypothesis GA : grid_axes P Q Ls D nt.
Let HP := ga_P _ _ _ _ _ GA.
Let HQ := ga_Q _ _ _ _ _ GA.
Let GM := ga_models _ _ _ _ _ GA.
Let GN := ga_nt _ _ _ _ _ GA.

(** the rank that owns a tile *)
Definition own (ij : pair_Z) : Z := rk Q (tile_owner (Ls Row) (fst ij)) (tile_owner (Ls Col) (snd ij)).
Definition valid (ij : pair_Z) : Prop := 0 <= fst ij < nt Row /\ 0 <= snd ij < nt Col.

Lemma trange : forall rc p t, 0 <= p < gs P Q rc -> 0 <= tile_owner (Ls rc) t < gs P Q rc.
Proof using GA.
  intros rc p t Lp. rewrite <- (ga_grid _ _ _ _ _ GA rc). pose proof (m_ok _ _ _ (GM rc p Lp)) as [].
  unfold tile_owner. apply Z.mod_pos_bound. assumption.
Qed.
Lemma own_rank : forall ij, In (own ij) (ranks P Q) /\ co Q Row (own ij) = tile_owner (Ls Row) (fst ij) /\ co Q Col (own ij) = tile_owner (Ls Col) (snd ij).
Proof using GA.
  intros ij. pose proof (trange Row 0 (fst ij) ltac:(cbn; lia)) as A. pose proof (trange Col 0 (snd ij) ltac:(cbn; lia)) as B. cbn in A, B.
  split; [apply (mk_in P Q HP HQ Row); cbn; assumption|]. apply (co_mk P Q HP HQ Row); cbn; assumption.
Qed.
Lemma rank_of_own : forall r ij, In r (ranks P Q) -> 0 <= fst ij -> 0 <= snd ij -> rank_of Q D r ij = own ij.
Proof using GA.
  intros r ij Ir Li Lj. apply (in_ranks P Q HP HQ) in Ir as [A B]. unfold rank_of, own.
  rewrite (T_tile_owner _ _ _ (GM Row _ A) _ Li), (T_tile_owner _ _ _ (GM Col _ B) _ Lj). reflexivity.
Qed.
Lemma own_eqb : forall r ij, In r (ranks P Q) -> (own ij =? r) = (tile_owner (Ls Row) (fst ij) =? co Q Row r) && (tile_owner (Ls Col) (snd ij) =? co Q Col r).
Proof using GA.
  intros r ij Ir. destruct (own_rank ij) as (A & B & C). destruct (Z.eqb_spec (own ij) r) as [<-|N].
  - rewrite B, C, !Z.eqb_refl. reflexivity.
  - symmetry. apply andb_false_iff. destruct (Z.eqb_spec (tile_owner (Ls Row) (fst ij)) (co Q Row r)) as [E1|]; [right|left; reflexivity].
    destruct (Z.eqb_spec (tile_owner (Ls Col) (snd ij)) (co Q Col r)) as [E2|]; [|reflexivity]. exfalso. apply N. unfold own. rewrite E1, E2. apply (mk_co P Q HP HQ Row r).
Qed.
Lemma nt_pos : forall rc, 0 <= nt rc.
Proof using GA.
  intros rc. assert (L0 : 0 <= 0 < gs P Q rc) by (pose proof (gs_pos P Q HP HQ rc); lia). rewrite <- (GN rc 0 L0). apply (T_nt_nonneg _ _ _ (GM rc 0 L0)).
Qed.
(** the tiles of rank r, in the order of its loop *)
Lemma local_tiles_global : forall r, In r (ranks P Q) -> map (global_tile Q D r) (local_tiles Q D r) = filter (fun ij => own ij =? r) (range2d_list (nt Row) (nt Col)).
Proof using GA.
  intros r Ir. pose proof (proj1 (in_ranks P Q HP HQ r) Ir) as [A B].
  assert (X : forall rc, 0 <= co Q rc r < gs P Q rc -> map (ax_global_tile_from_local_tile (D rc (co Q rc r))) (zrange 0 (ax_local_nr_tiles (D rc (co Q rc r)))) = filter (fun t => tile_owner (Ls rc) t =? co Q rc r) (zrange 0 (nt rc))).
  { intros rc Lr. pose proof (GM rc _ Lr) as M. pose proof (nt_pos rc). rewrite <- (DistGrid.local_tiles (Ls rc) _ _ M 0 (nt rc)) by (try lia; rewrite (GN rc _ Lr); lia).
    rewrite (T_next_local _ _ _ M 0) by lia. rewrite (local_end _ _ _ M). rewrite (GN rc _ Lr). reflexivity. }
  rewrite (filter_ext_in' _ (fun ij => (tile_owner (Ls Row) (fst ij) =? co Q Row r) && (tile_owner (Ls Col) (snd ij) =? co Q Col r))) by (intros; apply own_eqb; exact Ir).
  rewrite (range2d_filter (fun t => tile_owner (Ls Row) t =? co Q Row r) (fun t => tile_owner (Ls Col) t =? co Q Col r)). rewrite <- (X Row A), <- (X Col B).
  unfold CopyModel.local_tiles, range2d_list. rewrite map_flat_map, flat_map_map. apply flat_map_ext_in. intros j _. rewrite !map_map. reflexivity.
Qed.
Lemma in_local_tiles : forall r lc, In r (ranks P Q) -> In lc (local_tiles Q D r) ->
  valid (global_tile Q D r lc) /\ own (global_tile Q D r lc) = r /\ local_tile Q D r (global_tile Q D r lc) = lc.
Proof using GA.
  intros r [i j] Ir I. pose proof (proj1 (in_ranks P Q HP HQ r) Ir) as [A B]. apply in_range2d in I as [Li Lj].
  destruct (T_global_tile _ _ _ (GM Row _ A) i Li) as (A1 & A2 & A3). destruct (T_global_tile _ _ _ (GM Col _ B) j Lj) as (B1 & B2 & B3). cbv zeta in *.
  rewrite (GN Row _ A) in A1. rewrite (GN Col _ B) in B1. unfold global_tile, local_tile. cbn [fst snd]. split; [split; assumption|]. split.
  - unfold own. cbn [fst snd]. rewrite A2, B2. apply (mk_co P Q HP HQ Row r).
  - rewrite (T_local_tile _ _ _ (GM Row _ A)), (T_local_tile _ _ _ (GM Col _ B)) by lia. rewrite A2, B2, !Z.eqb_refl, A3, B3. reflexivity.
Qed.
Lemma local_tile_in : forall ij, valid ij -> In (local_tile Q D (own ij) ij) (local_tiles Q D (own ij)) /\ global_tile Q D (own ij) (local_tile Q D (own ij) ij) = ij /\
  local_tile Q D (own ij) ij = (count (tile_owned (Ls Row) (tile_owner (Ls Row) (fst ij))) (fst ij), count (tile_owned (Ls Col) (tile_owner (Ls Col) (snd ij))) (snd ij)).
Proof using GA.
  intros [i j] [Li Lj]. cbn [fst snd] in *. destruct (own_rank (i, j)) as (Ir & C1 & C2). cbn [fst snd] in *. pose proof (proj1 (in_ranks P Q HP HQ _) Ir) as [A B].
  rewrite <- (GN Row _ A) in Li. rewrite <- (GN Col _ B) in Lj.
  unfold global_tile, local_tile. cbn [fst snd].
  rewrite (T_global_tile_inv _ _ _ (GM Row _ A) i Li) by (symmetry; exact C1). rewrite (T_global_tile_inv _ _ _ (GM Col _ B) j Lj) by (symmetry; exact C2).
  rewrite (T_local_tile _ _ _ (GM Row _ A)), (T_local_tile _ _ _ (GM Col _ B)) by lia. rewrite C1, C2, !Z.eqb_refl.
  split; [|split; reflexivity]. unfold CopyModel.local_tiles. apply in_range2d. rewrite (T_local_nr_tiles _ _ _ (GM Row _ A)), (T_local_nr_tiles _ _ _ (GM Col _ B)), C1, C2.
  pose proof (count_bounds (tile_owned (Ls Row) (tile_owner (Ls Row) i)) i ltac:(lia)). pose proof (count_bounds (tile_owned (Ls Col) (tile_owner (Ls Col) j)) j ltac:(lia)).
  rewrite C1 in Li. rewrite C2 in Lj.
  split; (split; [lia|]); apply count_lt; try (rewrite ?C1, ?C2; lia); apply Z.eqb_refl.
Qed.
End one.

Section two.
Variables P Q : Z.
Variables LS LD : coord -> layout.
Variables DS DD : coord -> Z -> axis.
Variable nt : coord -> Z.
Hypothesis GS : grid_axes P Q LS DS nt.
Hypothesis GD : grid_axes P Q LD DD nt.
Notation ownS := (own Q LS).
Notation ownD := (own Q LD).
Definition tg (ij : pair_Z) : Z := fst ij + snd ij * ceilDiv (nt Row) P.
(** the tiles that rank s sends to rank d with tag t *)
Definition chan (s d t : Z) : list pair_Z := filter (fun ij => (ownS ij =? s) && (ownD ij =? d) && (tg ij =? t)) (range2d_list (nt Row) (nt Col)).

Lemma tag_tg : forall r ij, In r (ranks P Q) -> tag P Q DS r ij = tg ij.
Proof using GS. intros r ij Ir. apply (in_ranks P Q (ga_P _ _ _ _ _ GS) (ga_Q _ _ _ _ _ GS)) in Ir as [A B]. unfold tag, tg. rewrite (ga_nt _ _ _ _ _ GS Row _ A). reflexivity. Qed.

Lemma sends_chan : forall s d t, In s (ranks P Q) -> s <> d -> map (global_tile Q DS s) (on_channel d t (sends P Q DS DD s)) = chan s d t.
Proof using GS GD.
  intros s d t Is N. unfold sends, on_channel. cbv zeta. rewrite flat_map_single.
  rewrite <- (filter_map_comm (fun lc => (rank_of Q DD s (global_tile Q DS s lc), tag P Q DS s (global_tile Q DS s lc), lc)) (fun m => (fst (fst m) =? d) && (snd (fst m) =? t))).
  rewrite !map_map. cbn [fst snd]. rewrite filter_filter.
  rewrite (filter_ext_in' _ (fun lc => (fun ij => (ownD ij =? d) && (tg ij =? t)) (global_tile Q DS s lc))).
  - rewrite (filter_map_comm (global_tile Q DS s) (fun ij => (ownD ij =? d) && (tg ij =? t))), (local_tiles_global _ _ _ _ _ GS) by exact Is. rewrite filter_filter. apply filter_ext_in'. intros ij _. apply andb_assoc.
  - intros lc I. destruct (in_local_tiles _ _ _ _ _ GS s lc Is I) as ([V1 V2] & O & _). set (ij := global_tile Q DS s lc) in *.
    rewrite (rank_of_own _ _ _ _ _ GS s ij Is) by lia. rewrite (rank_of_own _ _ _ _ _ GD s ij Is) by lia. rewrite (tag_tg s ij Is). rewrite O, Z.eqb_refl.
    destruct (Z.eqb_spec (ownD ij) d) as [E|E]; [|cbn; rewrite andb_false_r; reflexivity]. rewrite (proj2 (Z.eqb_neq s (ownD ij))) by congruence. reflexivity.
Qed.
Lemma recvs_chan : forall s d t, In d (ranks P Q) -> s <> d -> map (global_tile Q DD d) (on_channel s t (recvs P Q DS DD d)) = chan s d t.
Proof using GS GD.
  intros s d t Id N. unfold recvs, on_channel. cbv zeta. rewrite flat_map_single.
  rewrite <- (filter_map_comm (fun lc => (rank_of Q DS d (global_tile Q DD d lc), tag P Q DS d (global_tile Q DD d lc), lc)) (fun m => (fst (fst m) =? s) && (snd (fst m) =? t))).
  rewrite !map_map. cbn [fst snd]. rewrite filter_filter.
  rewrite (filter_ext_in' _ (fun lc => (fun ij => (ownS ij =? s) && (tg ij =? t)) (global_tile Q DD d lc))).
  - rewrite (filter_map_comm (global_tile Q DD d) (fun ij => (ownS ij =? s) && (tg ij =? t))), (local_tiles_global _ _ _ _ _ GD) by exact Id. rewrite filter_filter. apply filter_ext_in'. intros ij _.
    destruct (ownD ij =? d), (ownS ij =? s); reflexivity.
  - intros lc I. destruct (in_local_tiles _ _ _ _ _ GD d lc Id I) as ([V1 V2] & O & _). set (ij := global_tile Q DD d lc) in *.
    rewrite (rank_of_own _ _ _ _ _ GS d ij Id) by lia. rewrite (rank_of_own _ _ _ _ _ GD d ij Id) by lia. rewrite (tag_tg d ij Id). rewrite O, Z.eqb_refl.
    destruct (Z.eqb_spec (ownS ij) s) as [E|E]; [|cbn; rewrite andb_false_r; reflexivity]. rewrite (proj2 (Z.eqb_neq d (ownS ij))) by congruence. reflexivity.
Qed.
Lemma on_channel_perm : forall p t l l', Permutation l l' -> Permutation (on_channel p t l) (on_channel p t l').
Proof. intros p t l l' H. unfold on_channel. apply Permutation_map, filter_perm, H. Qed.

Lemma in_on_channel : forall s d t lc, In d (ranks P Q) -> In lc (on_channel s t (recvs P Q DS DD d)) -> In lc (local_tiles Q DD d).
Proof.
  intros s d t lc _ I. unfold on_channel in I. apply in_map_iff in I as (m & <- & I). apply filter_In in I as [I _]. unfold recvs in I. apply in_flat_map in I as (x & Ix & I). cbv zeta in I.
  destruct (Bool.eqb _ _); [destruct I|]. destruct I as [<-|[]]. exact Ix.
Qed.
Lemma in_on_channel_s : forall s d t lc, In s (ranks P Q) -> In lc (on_channel d t (sends P Q DS DD s)) -> In lc (local_tiles Q DS s).
Proof.
  intros s d t lc _ I. unfold on_channel in I. apply in_map_iff in I as (m & <- & I). apply filter_In in I as [I _]. unfold sends in I. apply in_flat_map in I as (x & Ix & I). cbv zeta in I.
  destruct (Bool.eqb _ _); [destruct I|]. destruct I as [<-|[]]. exact Ix.
Qed.

(** if the two sides of every channel are in the same order, every tile arrives where it belongs *)
Lemma copied_tile : forall {V} (os or : Z -> list (Z * Z * pair_Z)) (src dst : Z -> nmat (V := V)),
  (forall s, In s (ranks P Q) -> Permutation (sends P Q DS DD s) (os s)) -> (forall d, In d (ranks P Q) -> Permutation (recvs P Q DS DD d) (or d)) ->
  (forall s d t, In s (ranks P Q) -> In d (ranks P Q) -> s <> d -> map (global_tile Q DS s) (on_channel d t (os s)) = map (global_tile Q DD d) (on_channel s t (or d))) ->
  forall ij, valid nt ij -> copied P Q DS DD os or src dst (ownD ij) (local_tile Q DD (ownD ij) ij) = src (ownS ij) (local_tile Q DS (ownS ij) ij).
Proof using GS GD.
  intros V os or src dst PS PR CO ij Vij. destruct (local_tile_in _ _ _ _ _ GD ij Vij) as (I & G & _). set (d := ownD ij) in *. set (lc := local_tile Q DD d ij) in *.
  destruct (own_rank _ _ _ _ _ GD ij) as (Id & _). fold d in Id. destruct (own_rank _ _ _ _ _ GS ij) as (Is & _). set (s := ownS ij) in *.
  destruct Vij as [V1 V2]. unfold copied. rewrite (proj2 (existsb_exists _ _)) by (exists lc; split; [exact I|apply pair_eqb_eq; reflexivity]).
  rewrite G. cbv zeta. rewrite (rank_of_own _ _ _ _ _ GS d ij Id) by lia. rewrite (rank_of_own _ _ _ _ _ GD d ij Id) by lia. fold d. fold s. rewrite Z.eqb_refl.
  destruct (Z.eqb_spec d s) as [E|N]; [cbn [Bool.eqb]; rewrite E; reflexivity|cbn [Bool.eqb]]. rewrite (tag_tg d ij Id).
  assert (IC : In lc (on_channel s (tg ij) (or d))).
  { assert (IG : In ij (map (global_tile Q DD d) (on_channel s (tg ij) (recvs P Q DS DD d)))).
    { rewrite recvs_chan by (try assumption; congruence). unfold chan. apply filter_In. split; [destruct ij; apply in_range2d; cbn in *; lia|]. fold s d. rewrite !Z.eqb_refl. reflexivity. }
    apply in_map_iff in IG as (x & E & Ix). pose proof (in_on_channel _ _ _ _ Id Ix) as IL. destruct (in_local_tiles _ _ _ _ _ GD d x Id IL) as (_ & _ & B). rewrite E in B. fold lc in B. subst x.
    apply (Permutation_in _ (on_channel_perm s (tg ij) _ _ (PR d Id))). exact Ix. }
  destruct (index_of_in _ _ IC) as (k & -> & NK). specialize (CO s d (tg ij) Is Id ltac:(congruence)).
  assert (X : nth_error (map (global_tile Q DD d) (on_channel s (tg ij) (or d))) k = Some ij) by (rewrite nth_error_map, NK; cbn; rewrite G; reflexivity).
  rewrite <- CO, nth_error_map in X. destruct (nth_error (on_channel d (tg ij) (os s)) k) as [u|] eqn:NU; [|discriminate]. cbn in X. injection X as X.
  apply nth_error_In in NU. apply (Permutation_in _ (Permutation_sym (on_channel_perm d (tg ij) _ _ (PS s Is)))) in NU. apply in_on_channel_s in NU; [|exact Is].
  destruct (in_local_tiles _ _ _ _ _ GS s u Is NU) as (_ & _ & B). rewrite X in B. rewrite B. reflexivity.
Qed.
(** posting in the order of the loops *)
Lemma in_order : forall s d t, In s (ranks P Q) -> In d (ranks P Q) -> s <> d ->
  map (global_tile Q DS s) (on_channel d t (sends P Q DS DD s)) = map (global_tile Q DD d) (on_channel s t (recvs P Q DS DD d)).
Proof using GS GD. intros s d t Is Id N. rewrite sends_chan, recvs_chan by assumption. reflexivity. Qed.
(** at most one message per channel *)
Lemma distinct_tags : (forall ij ij', valid nt ij -> valid nt ij' -> ownS ij = ownS ij' -> ownD ij = ownD ij' -> ownS ij <> ownD ij -> tg ij = tg ij' -> ij = ij') ->
  forall (os or : Z -> list (Z * Z * pair_Z)),
  (forall s, In s (ranks P Q) -> Permutation (sends P Q DS DD s) (os s)) -> (forall d, In d (ranks P Q) -> Permutation (recvs P Q DS DD d) (or d)) ->
  forall s d t, In s (ranks P Q) -> In d (ranks P Q) -> s <> d -> map (global_tile Q DS s) (on_channel d t (os s)) = map (global_tile Q DD d) (on_channel s t (or d)).
Proof using GS GD.
  intros DT os or PS PR s d t Is Id N.
  assert (A : Permutation (chan s d t) (map (global_tile Q DS s) (on_channel d t (os s)))) by (rewrite <- (sends_chan s d t Is N); apply Permutation_map, on_channel_perm, PS, Is).
  assert (B : Permutation (chan s d t) (map (global_tile Q DD d) (on_channel s t (or d)))) by (rewrite <- (recvs_chan s d t Id N); apply Permutation_map, on_channel_perm, PR, Id).
  assert (ND : NoDup (range2d_list (nt Row) (nt Col))).
  { unfold range2d_list. clear. assert (H : forall l : list Z, NoDup l -> NoDup (flat_map (fun j => map (fun i => (i, j)) (zrange 0 (nt Row))) l)); [|apply H, zrange_NoDup].
    intros l H. induction H as [|x l NI H IH]; [constructor|]. cbn. apply NoDup_app_iff'; [|exact IH|].
    - apply FinFun.Injective_map_NoDup; [intros a b E; injection E; auto|apply zrange_NoDup].
    - intros p I1 I2. apply in_map_iff in I1 as (i & <- & _). apply in_flat_map in I2 as (y & Iy & I2). apply in_map_iff in I2 as (i' & E & _). injection E as _ ->. contradiction. }
  assert (S : forall x y l, chan s d t = x :: y :: l -> False).
  { intros x y l E. assert (NDc : NoDup (chan s d t)) by (apply NoDup_filter; exact ND). rewrite E in NDc. inversion NDc as [|? ? NI _]; subst. apply NI. left.
    assert (Ix : In x (chan s d t)) by (rewrite E; left; reflexivity). assert (Iy : In y (chan s d t)) by (rewrite E; right; left; reflexivity).
    unfold chan in Ix, Iy. apply filter_In in Ix as [Rx Cx], Iy as [Ry Cy]. apply andb_true_iff in Cx as [Cx Tx], Cy as [Cy Ty]. apply andb_true_iff in Cx as [Sx Dx], Cy as [Sy Dy].
    apply Z.eqb_eq in Tx, Ty, Sx, Sy, Dx, Dy. destruct x, y. apply in_range2d in Rx, Ry. symmetry. apply DT; try congruence; unfold valid; cbn; tauto. }
  destruct (chan s d t) as [|x [|y l]].
  - apply Permutation_nil in A, B. rewrite A, B. reflexivity.
  - apply Permutation_length_1_inv in A, B. rewrite A, B. reflexivity.
  - destruct (S x y l eq_refl).
Qed.
(** every send has its receive *)
Lemma send_recv_counts : forall s d t, In s (ranks P Q) -> In d (ranks P Q) -> s <> d ->
  length (on_channel d t (sends P Q DS DD s)) = length (on_channel s t (recvs P Q DS DD d)).
Proof using GS GD. intros s d t Is Id N. pose proof (f_equal (@length _) (in_order s d t Is Id N)) as E. rewrite !map_length in E. exact E. Qed.
End two.
