(** * Proofs about matrix::util::set*, set_random*. *)
From Coq Require Import ZArith Lia List Bool Znumtheory.
From Verif Require Import CInt Loop DistModel DistSpec DivLemmas DistProofs DistProofs2 DistBuilt DistThms NormModel Properties_Norm UtilMatModel.
Import ListNotations.
Local Open Scope Z_scope.

(** ** Loops *)
Lemma fold_stuck : forall {A S} (f : S -> A -> res S) l (r : res S), (forall s, r <> Ok s) -> fold_left (fun r a => s <- r ;; f s a) l r = r.
Proof.
  intros A S f l. induction l as [|a l IH]; intros r H; [reflexivity|]. cbn [fold_left].
  assert (E : (s <- r ;; f s a) = r) by (destruct r; [destruct (H a0 eq_refl)|reflexivity|reflexivity]). rewrite E. apply IH, H.
Qed.
Lemma foldM_cons : forall {A S} (f : S -> A -> res S) a l s, foldM f (a :: l) s = (s' <- f s a ;; foldM f l s').
Proof.
  intros A S f a l s. unfold foldM. cbn [fold_left bind]. destruct (f s a) as [s'| |]; [reflexivity| |]; apply fold_stuck; discriminate.
Qed.
Lemma foldM_app : forall {A S} (f : S -> A -> res S) l1 l2 s, foldM f (l1 ++ l2) s = (s' <- foldM f l1 s ;; foldM f l2 s').
Proof.
  intros A S f l1 l2. induction l1 as [|a l1 IH]; intros s; [reflexivity|]. cbn [app]. rewrite !foldM_cons.
  destruct (f s a) as [s'| |]; cbn [bind]; [apply IH|reflexivity|reflexivity].
Qed.
Lemma foldM_flat : forall {A B S} (f : S -> A -> res S) (g : B -> list A) (h : S -> B -> res S) l s, (forall s b, h s b = foldM f (g b) s) ->
  foldM h l s = foldM f (flat_map g l) s.
Proof.
  intros A B S f g h l. induction l as [|b l IH]; intros s H; [reflexivity|]. cbn [flat_map]. rewrite foldM_cons, foldM_app, H.
  destruct (foldM f (g b) s) as [s'| |]; cbn [bind]; [apply IH, H|reflexivity|reflexivity].
Qed.
Lemma foldM_ext : forall {A S} (f g : S -> A -> res S) l s, (forall s a, In a l -> f s a = g s a) -> foldM f l s = foldM g l s.
Proof.
  intros A S f g l. induction l as [|a l IH]; intros s H; [reflexivity|]. rewrite !foldM_cons, H by (left; reflexivity).
  destruct (g s a) as [s'| |]; cbn [bind]; [apply IH; intros; apply H; right; assumption|reflexivity|reflexivity].
Qed.

Section proofs.
Context {K : Type} (rng : Z -> nat -> K).
Local Notation tile_t := (@tile_t K).
Definition wrs (sz : pair_Z) (w : list (pair_Z * K)) (t : tile_t) : res tile_t := foldM (fun t w => wr sz t (fst w) (snd w)) w t.

Lemma pair_eqb : forall (p q : pair_Z), (fst p =? fst q) && (snd p =? snd q) = true <-> p = q.
Proof. intros [a b] [c e]. cbn. rewrite andb_true_iff, !Z.eqb_eq. split; [intros [-> ->]; reflexivity|intros E; injection E; auto]. Qed.
(** distinct positions inside: every one gets its value, the others keep theirs *)
Lemma wrs_ok : forall sz w t, (forall p v, In (p, v) w -> inside sz p = true) -> NoDup (map fst w) ->
  exists T, wrs sz w t = Ok T /\ (forall p v, In (p, v) w -> T p = v) /\ (forall p, ~ In p (map fst w) -> T p = t p).
Proof.
  intros sz w. induction w as [|[q u] w IH]; intros t I N.
  - exists t. split; [reflexivity|]. split; [intros p v []|auto].
  - unfold wrs. rewrite foldM_cons. unfold wr at 1. cbn [fst snd]. rewrite (I q u) by (left; reflexivity). cbn [bind].
    inversion N as [|? ? N1 N2]; subst. destruct (IH (fun e => if (fst e =? fst q) && (snd e =? snd q) then u else t e)) as (T & A & B & C); [intros p v Hp; apply (I p v); right; exact Hp|exact N2|].
    exists T. split; [exact A|]. split.
    + intros p v [E|Hp]; [|apply B, Hp]. injection E as <- <-. rewrite C by exact N1. rewrite (proj2 (pair_eqb q q) eq_refl). reflexivity.
    + intros p Hp. cbn in Hp. rewrite C by tauto. destruct ((fst p =? fst q) && (snd p =? snd q)) eqn:E; [|reflexivity]. apply pair_eqb in E. subst. tauto.
Qed.

(** what a sequence of draws writes *)
Fixpoint writes {A} (seed : Z) (ws : A -> K -> list (pair_Z * K)) (items : list A) (k : nat) : list (pair_Z * K) :=
  match items with [] => [] | e :: l => ws e (rng seed k) ++ writes seed ws l (S k) end.
Lemma draws_writes : forall {A} seed sz (ws : A -> K -> list (pair_Z * K)) items t k,
  run_draws (foldM (fun st e => draw rng sz seed (ws e) st) items (t, k)) = wrs sz (writes seed ws items k) t.
Proof.
  intros A seed sz ws items. induction items as [|e l IH]; intros t k; [reflexivity|]. cbn [writes]. unfold wrs. rewrite foldM_app, foldM_cons.
  unfold draw at 1. cbn [fst snd]. fold (wrs sz (ws e (rng seed k)) t).
  destruct (wrs sz (ws e (rng seed k)) t) as [T| |]; cbn [bind]; [apply IH|reflexivity|reflexivity].
Qed.
Lemma in_writes : forall {A} seed (ws : A -> K -> list (pair_Z * K)) items k p v, In (p, v) (writes seed ws items k) <->
  exists n e, nth_error items n = Some e /\ In (p, v) (ws e (rng seed (k + n)%nat)).
Proof.
  intros A seed ws items. induction items as [|e l IH]; intros k p v; cbn [writes].
  - split; [intros []|intros ([|n] & e & E & _); discriminate].
  - rewrite in_app_iff, IH. split.
    + intros [H|(n & e' & E & H)]; [exists O, e; rewrite Nat.add_0_r; auto|exists (S n), e'; rewrite Nat.add_succ_r; auto].
    + intros ([|n] & e' & E & H); [left; injection E as <-; rewrite Nat.add_0_r in H; exact H|right; exists n, e'; rewrite Nat.add_succ_r in H; auto].
Qed.
Lemma nodup_writes : forall {A} seed (ws : A -> K -> list (pair_Z * K)) (ps : A -> list pair_Z) items k,
  (forall e v, map fst (ws e v) = ps e) -> NoDup (flat_map ps items) -> NoDup (map fst (writes seed ws items k)).
Proof.
  intros A seed ws ps items k H. assert (E : forall k, map fst (writes seed ws items k) = flat_map ps items).
  { induction items as [|e l IH]; intros k'; [reflexivity|]. cbn. rewrite map_app, H, IH. reflexivity. }
  rewrite E. auto.
Qed.
Lemma nodup_flat : forall {A B} (f : A -> list B) l, NoDup l -> (forall a, In a l -> NoDup (f a)) -> (forall a b x, In a l -> In b l -> In x (f a) -> In x (f b) -> a = b) -> NoDup (flat_map f l).
Proof.
  intros A B f l N. induction N as [|a l Na N IH]; intros H1 H2; [constructor|]. cbn.
  assert (X : forall (u v : list B), NoDup u -> NoDup v -> (forall x, In x u -> ~ In x v) -> NoDup (u ++ v)).
  { induction u as [|y u IHu]; intros v Nu Nv D; [exact Nv|]. inversion Nu; subst. cbn. constructor; [|apply IHu; auto; intros x Hx; apply D; right; exact Hx].
    rewrite in_app_iff. intros [Q|Q]; [contradiction|]. apply (D y); [left; reflexivity|exact Q]. }
  apply X; [apply H1; left; reflexivity|apply IH; [intros; apply H1; right; assumption|intros; eapply H2; eauto; right; assumption]|].
  intros x Hx Hy. apply in_flat_map in Hy as (b & Hb & Hy). apply Na. rewrite (H2 a b x); auto; [left; reflexivity|right; exact Hb].
Qed.

(** ** Ranges *)
Lemma zrange_nodup : forall lo hi, NoDup (zrange lo hi).
Proof.
  intros lo hi. unfold zrange. assert (X : forall l, NoDup l -> NoDup (map (fun k => lo + Z.of_nat k) l)).
  { induction 1; cbn; constructor; auto. rewrite in_map_iff. intros (y & E & Hy). assert (y = x) by lia. congruence. }
  apply X, seq_NoDup.
Qed.
Lemma range2d_nodup : forall m n, NoDup (range2d_list m n).
Proof.
  intros m n. unfold range2d_list. apply nodup_flat; [apply zrange_nodup| |].
  - intros j _. pose proof (zrange_nodup 0 m) as N. induction N; cbn; constructor; auto. rewrite in_map_iff. intros (y & E & Hy). congruence.
  - intros a b x _ _ Ha Hb. apply in_map_iff in Ha as (u & <- & _). apply in_map_iff in Hb as (v & E & _). congruence.
Qed.
Lemma inside_iff : forall sz p, inside sz p = true <-> 0 <= fst p < fst sz /\ 0 <= snd p < snd sz.
Proof. intros sz p. unfold inside. rewrite !andb_true_iff, !Z.leb_le, !Z.ltb_lt. tauto. Qed.
Lemma in_range : forall sz p, In p (range2d_list (fst sz) (snd sz)) <-> inside sz p = true.
Proof. intros sz [i j]. rewrite inside_iff. apply in_range2d. Qed.
Lemma flat_single : forall (l : list pair_Z), flat_map (fun e => [e]) l = l.
Proof. induction l; cbn; congruence. Qed.

(** ** Tiles *)
(** a tile function whose result is given by writes that cover the tile *)
Definition tile_is (sz : pair_Z) (w : list (pair_Z * K)) (f : tile_t -> res tile_t) : Prop :=
  (forall t, exists T, f t = Ok T /\ forall p v, In (p, v) w -> T p = v) /\ forall p, inside sz p = true -> exists v, In (p, v) w.
Lemma tile_is_intro : forall sz w (f : tile_t -> res tile_t), (forall t, f t = wrs sz w t) -> (forall p v, In (p, v) w -> inside sz p = true) -> NoDup (map fst w) ->
  (forall p, inside sz p = true -> exists v, In (p, v) w) -> tile_is sz w f.
Proof.
  intros sz w f E I N C. split; [|exact C]. intros t. destruct (wrs_ok sz w t I N) as (T & A & B & _). exists T. rewrite E. auto.
Qed.
Definition set_w (el_f : pair_Z -> K) (origin sz : pair_Z) : list (pair_Z * K) :=
  map (fun e => (e, el_f (fst origin + fst e, snd origin + snd e))) (range2d_list (fst sz) (snd sz)).
Lemma set_tile_is : forall el_f origin sz, tile_is sz (set_w el_f origin sz) (set_tile el_f origin sz).
Proof.
  intros el_f origin sz. apply tile_is_intro.
  - intros t. unfold set_tile, wrs, set_w. revert t. induction (range2d_list (fst sz) (snd sz)) as [|e l IH]; intros t; [reflexivity|].
    cbn [map]. rewrite !foldM_cons. cbn [fst snd]. destruct (wr sz t e _); cbn [bind]; auto.
  - intros p v H. apply in_map_iff in H as (e & E & He). injection E as <- _. apply in_range, He.
  - unfold set_w. rewrite map_map. cbn. rewrite map_id. apply range2d_nodup.
  - intros p H. eexists. apply in_map_iff. exists p. split; [reflexivity|]. apply in_range, H.
Qed.
(** one value per element, in the order of the loop *)
Lemma plain_draws : forall seed sz (h : pair_Z -> K -> K),
  tile_is sz (writes seed (fun e v => [(e, h e v)]) (range2d_list (fst sz) (snd sz)) O)
    (fun t => run_draws (foldM (fun st e => draw rng sz seed (fun v => [(e, h e v)]) st) (range2d_list (fst sz) (snd sz)) (t, O))).
Proof.
  intros seed sz h. apply tile_is_intro.
  - intros t. apply draws_writes.
  - intros p v H. apply in_writes in H as (n & e & E & [Q|[]]). injection Q as <- _. apply in_range. eapply nth_error_In; exact E.
  - apply (nodup_writes seed _ (fun e => [e])); [reflexivity|]. rewrite flat_single. apply range2d_nodup.
  - intros p H. apply in_range, In_nth_error in H as (n & E). exists (h p (rng seed (0 + n))). apply in_writes. exists n, p. cbn. auto.
Qed.

Context (kconj : K -> K) (k0 : K) (real_plus : K -> Z -> K).
Definition diag_items (n : Z) : list pair_Z := flat_map (fun j => map (fun i => (i, j)) (zrange 0 j) ++ [(j, j)]) (zrange 0 n).
Definition diag_ws (z : Z) (e : pair_Z) (v : K) : list (pair_Z * K) :=
  if fst e =? snd e then [(e, real_plus v z)] else [(e, v); ((snd e, fst e), kconj v)].
Definition diag_w (seed n z : Z) := writes seed (diag_ws z) (diag_items n) O.
Lemma in_diag_items : forall n i j, In (i, j) (diag_items n) <-> 0 <= i <= j /\ j < n.
Proof.
  intros n i j. unfold diag_items. rewrite in_flat_map. split.
  - intros (c & Hc & H). apply in_zrange in Hc. apply in_app_iff in H as [H|[H|[]]]; [apply in_map_iff in H as (x & E & Hx); apply in_zrange in Hx|]; inversion H || inversion E; subst; lia.
  - intros H. exists j. split; [apply in_zrange; lia|]. apply in_app_iff. destruct (Z.eq_dec i j) as [->|N]; [right; left; reflexivity|left].
    apply in_map_iff. exists i. split; [reflexivity|apply in_zrange; lia].
Qed.
Lemma diag_nodup : forall n, NoDup (diag_items n).
Proof.
  intros n. unfold diag_items. apply nodup_flat; [apply zrange_nodup| |].
  - intros j _. assert (N : NoDup (map (fun i => (i, j)) (zrange 0 (j + 1)))).
    { pose proof (zrange_nodup 0 (j + 1)) as N. induction N; cbn; constructor; auto. rewrite in_map_iff. intros (y & E & Hy). congruence. }
    destruct (Z.leb_spec 0 j) as [Q|Q]; [rewrite zrange_snoc in N by lia; rewrite map_app in N; exact N|]. rewrite zrange_nil by lia. cbn. repeat constructor. auto.
  - intros a b x _ _ Ha Hb. assert (X : forall c, In x (map (fun i => (i, c)) (zrange 0 c) ++ [(c, c)]) -> snd x = c).
    { intros c H. apply in_app_iff in H as [H|[<-|[]]]; [apply in_map_iff in H as (u & <- & _)|]; reflexivity. }
    rewrite <- (X a Ha), <- (X b Hb). reflexivity.
Qed.
Lemma diag_tile_is : forall seed n z, tile_is (n, n) (diag_w seed n z) (set_diagonal_tile kconj real_plus rng seed (n, n) z).
Proof.
  intros seed n z. apply tile_is_intro.
  - intros t. unfold set_diagonal_tile, diag_w. rewrite <- draws_writes. f_equal. cbn [snd]. apply foldM_flat. intros [t' k] j.
    rewrite foldM_app. erewrite (foldM_ext _ _ (map (fun i => (i, j)) (zrange 0 j))); [|intros st a Ha; reflexivity].
    assert (X : forall l st, (forall i, In i l -> i <> j) -> foldM (fun st i => draw rng (n, n) seed (fun v => [((i, j), v); ((j, i), kconj v)]) st) l st =
              foldM (fun st e => draw rng (n, n) seed (diag_ws z e) st) (map (fun i => (i, j)) l) st).
    { induction l as [|i l IH]; intros st Hl; [reflexivity|]. cbn [map]. rewrite !foldM_cons. unfold diag_ws at 1. cbn [fst snd].
      rewrite (proj2 (Z.eqb_neq i j)) by (apply Hl; left; reflexivity). destruct (draw _ _ _ _ st); cbn [bind]; [|reflexivity|reflexivity].
      apply IH. intros; apply Hl; right; assumption. }
    rewrite X by (intros i Hi; apply in_zrange in Hi; lia). destruct (foldM _ (map _ _) (t', k)); cbn [bind]; [|reflexivity|reflexivity].
    rewrite foldM_cons. unfold diag_ws. cbn [fst snd]. rewrite Z.eqb_refl. destruct (draw _ _ _ _ _); reflexivity.
  - intros p v H. apply in_writes in H as (k & [i j] & E & H). apply nth_error_In, in_diag_items in E. unfold diag_ws in H. cbn [fst snd] in H.
    rewrite inside_iff. cbn [fst snd]. destruct (i =? j); [destruct H as [Q|[]]|destruct H as [Q|[Q|[]]]]; injection Q as <- _; cbn; lia.
  - apply (nodup_writes seed _ (fun e => if fst e =? snd e then [e] else [e; (snd e, fst e)])).
    + intros e v. unfold diag_ws. destruct (fst e =? snd e); reflexivity.
    + apply nodup_flat; [apply diag_nodup| |].
      * intros [i j] _. cbn. destruct (Z.eqb_spec i j); repeat constructor; cbn; intros H; try tauto. destruct H as [H|[]]. injection H. congruence.
      * intros [i j] [i' j'] x Ha Hb. apply in_diag_items in Ha, Hb. cbn.
        destruct (Z.eqb_spec i j), (Z.eqb_spec i' j'); cbn; intros H1 H2; intuition; subst; congruence || (f_equal; congruence) || (exfalso; match goal with H : (_, _) = (_, _) |- _ => injection H; lia end).
  - intros [i j] H. apply inside_iff in H. cbn [fst snd] in H.
    assert (I : In (Z.min i j, Z.max i j) (diag_items n)) by (apply in_diag_items; lia). apply In_nth_error in I as (k & E).
    unfold diag_w. destruct (Z.lt_total i j) as [Q|[Q|Q]].
    + rewrite Z.min_l, Z.max_r in E by lia. exists (rng seed (0 + k)). apply in_writes. exists k, (i, j). split; [exact E|]. unfold diag_ws. cbn. rewrite (proj2 (Z.eqb_neq i j)) by lia. left. reflexivity.
    + subst. rewrite Z.min_id, Z.max_id in E. exists (real_plus (rng seed (0 + k)) z). apply in_writes. exists k, (j, j). split; [exact E|]. unfold diag_ws. cbn. rewrite Z.eqb_refl. left. reflexivity.
    + rewrite Z.min_r, Z.max_l in E by lia. exists (kconj (rng seed (0 + k))). apply in_writes. exists k, (j, i). split; [exact E|]. unfold diag_ws. cbn. rewrite (proj2 (Z.eqb_neq j i)) by lia. right. left. reflexivity.
Qed.

Definition off_ws (lower : bool) (origin sz : pair_Z) (band : option Z) (e : pair_Z) (v : K) : list (pair_Z * K) :=
  let index := if lower then e else (snd e, fst e) in
  if inside sz index then
    [(index, if is_off_band (fst origin + fst index, snd origin + snd index) band then k0 else if lower then v else kconj v)]
  else [].
Definition off_w (seed : Z) (lower : bool) (origin sz : pair_Z) (nb : Z) (band : option Z) :=
  writes seed (off_ws lower origin sz band) (range2d_list nb nb) O.
Lemma off_tile_is : forall d seed sz nb ij origin band, fst ij <> snd ij -> fst sz <= nb -> snd sz <= nb ->
  (forall e, inside sz e = true -> global_element_index d ij e = (fst origin + fst e, snd origin + snd e)) ->
  tile_is sz (off_w seed (snd ij <? fst ij) origin sz nb band) (set_lower_and_upper_tile kconj k0 rng d seed sz (nb, nb) ij band).
Proof.
  intros d seed sz nb ij origin band Ne L1 L2 G. unfold off_w. set (lower := snd ij <? fst ij). apply tile_is_intro.
  - intros t. rewrite <- draws_writes. unfold set_lower_and_upper_tile. f_equal. apply foldM_ext. intros st e _. unfold draw, off_ws. cbv zeta. fold lower.
    destruct lower; [destruct (inside sz e) eqn:I|destruct (inside sz (snd e, fst e)) eqn:I]; try rewrite (G _ I); reflexivity.
  - intros p v H. apply in_writes in H as (k & e & E & H). unfold off_ws in H. cbn zeta in H.
    destruct (inside sz (if lower then e else (snd e, fst e))) eqn:I; [|destruct H]. destruct H as [Q|[]]. injection Q as <- _. exact I.
  - apply (nodup_writes seed _ (fun e => let index := if lower then e else (snd e, fst e) in if inside sz index then [index] else [])).
    + intros e v. unfold off_ws. cbn zeta. destruct (inside sz _); reflexivity.
    + apply nodup_flat; [apply range2d_nodup| |].
      * intros e _. cbn zeta. destruct (inside sz _); repeat constructor; cbn; auto.
      * intros [i j] [i' j'] x _ _. cbn. destruct lower; destruct (inside sz _), (inside sz _); cbn; intros H1 H2; try tauto; destruct H1 as [<-|[]]; destruct H2 as [Q|[]]; injection Q as -> ->; reflexivity.
  - intros [i j] H. pose proof (proj1 (inside_iff _ _) H) as B. cbn [fst snd] in B.
    assert (I : In (if lower then (i, j) else (j, i)) (range2d_list nb nb)) by (destruct lower; apply in_range2d; lia).
    apply In_nth_error in I as (k & E). exists (if is_off_band (fst origin + i, snd origin + j) band then k0 else if lower then rng seed (0 + k) else kconj (rng seed (0 + k))).
    apply in_writes. exists k, (if lower then (i, j) else (j, i)). split; [exact E|].
    unfold off_ws. cbv zeta. destruct lower; cbn [fst snd]; rewrite H; left; reflexivity.
Qed.

(** ** The matrix *)
Lemma for_tiles_ok : forall d (g : pair_Z -> tile_t -> res tile_t) (w : pair_Z -> list (pair_Z * K)) M,
  (forall lc, inside (local_nr_tiles d) lc = true -> tile_is (tile_size d lc) (w lc) (g lc)) ->
  exists M', for_tiles d g M = Ok M' /\ forall lc p v, inside (local_nr_tiles d) lc = true -> In (p, v) (w lc) -> M' lc p = v.
Proof.
  intros d g w M H. unfold for_tiles.
  assert (X : forall l M, (forall lc, In lc l -> inside (local_nr_tiles d) lc = true) -> exists M',
    foldM (fun M lc => t <- g lc (M lc) ;; Ok (fun lc' => if (fst lc' =? fst lc) && (snd lc' =? snd lc) then t else M lc')) l M = Ok M' /\
    (forall lc p v, In lc l -> In (p, v) (w lc) -> M' lc p = v) /\ forall lc, ~ In lc l -> M' lc = M lc).
  { induction l as [|lc l IH]; intros M0 Hl; [exists M0; split; [reflexivity|split; [intros lc p v []|auto]]|].
    rewrite foldM_cons. destruct (H lc (Hl lc (or_introl eq_refl))) as [H1 _]. destruct (H1 (M0 lc)) as (T & E & ET). rewrite E. cbn [bind].
    edestruct (IH (fun lc' => if (fst lc' =? fst lc) && (snd lc' =? snd lc) then T else M0 lc')) as (M' & A & B & C); [intros; apply Hl; right; assumption|].
    exists M'. split; [exact A|]. split.
    - intros lc' p v [<-|I] Ip; [|apply B; assumption]. assert (DEC : forall a b : pair_Z, {a = b} + {a <> b}) by (intros; decide equality; apply Z.eq_dec).
      destruct (in_dec DEC lc l) as [I|NI]; [apply B; assumption|].
      rewrite C by exact NI. rewrite (proj2 (pair_eqb lc lc) eq_refl). apply ET, Ip.
    - intros lc' NI. rewrite C by (intros Q; apply NI; right; exact Q). destruct ((fst lc' =? fst lc) && (snd lc' =? snd lc)) eqn:Q; [|reflexivity].
      apply pair_eqb in Q. subst. destruct NI. left. reflexivity. }
  destruct (X (range2d_list (fst (local_nr_tiles d)) (snd (local_nr_tiles d))) M) as (M' & A & B & _); [intros lc I; apply in_range, I|].
  exists M'. split; [exact A|]. intros lc p v I. apply B, in_range, I.
Qed.
End proofs.

(** ** Geometry of an axis: n elements in tiles of nb, the first tile misses o *)
Definition g_tile (nb o x : Z) : Z := (o + x) / nb.
Definition g_first (nb o t : Z) : Z := Z.max 0 (t * nb - o).
Definition g_len (n nb o t : Z) : Z := Z.min (g_first nb o (t + 1)) n - g_first nb o t.
Definition l_o (L : layout) : Z := l_off L mod l_tile L.
Section axis.
Variables (r : Z) (L : layout) (a : axis).
Hypothesis M : models r L a.
Local Notation nb := (l_tile L).
Local Notation o := (l_o L).
Lemma geo : 0 < nb /\ 0 <= o < nb /\ 0 <= l_size L.
Proof using M. destruct (m_ok _ _ _ M). split; [assumption|]. split; [apply Z.mod_pos_bound; assumption|assumption]. Qed.
Lemma g_tile_of : forall x, tile_of L x = g_tile nb o x.
Proof using M.
  intros x. destruct geo as (A & B & _). unfold tile_of, g_tile, l_o. pose proof (Z.div_mod (l_off L) nb ltac:(lia)).
  replace (l_off L + x) with (l_off L mod nb + x + (l_off L / nb) * nb) by lia. rewrite Z.div_add by lia. lia.
Qed.
Lemma g_first_of : forall t, first_of_tile L t = g_first nb o t.
Proof using M.
  intros t. destruct geo as (A & B & _). unfold first_of_tile, g_first, l_o. pose proof (Z.div_mod (l_off L) nb ltac:(lia)). f_equal. nia.
Qed.
(** local tile *)
Lemma local_geo : forall lt, 0 <= lt < ax_local_nr_tiles a -> let t := ax_global_tile_from_local_tile a lt in
  0 <= t /\ ax_local_tile_size_of a lt = g_len (l_size L) nb o t /\ g_len (l_size L) nb o t <= nb /\
  forall e, ax_global_element_from_global_tile_and_tile_element a t e = g_first nb o t + e.
Proof using M.
  intros lt Hl. cbv zeta. destruct (T_global_tile _ _ _ M lt Hl) as (A & _ & _). cbv zeta in A. split; [lia|].
  destruct (wf_tile_end a (m_wf _ _ _ M) _ A) as [E Sz]. rewrite !(m_first _ _ _ M), !g_first_of, <- (ms _ _ _ M) in E.
  rewrite <- (mt _ _ _ M) in Sz. rewrite (T_local_tile_size _ _ _ M lt Hl). unfold g_len. split; [lia|]. split; [lia|].
  intros e. rewrite (global_element_spec a (w_p _ (m_wf _ _ _ M))) by lia. rewrite (m_first _ _ _ M), g_first_of. reflexivity.
Qed.
(** element *)
Lemma elem_geo : forall x, 0 <= x < l_size L -> owner L x = r ->
  let lt := ax_local_tile_from_global_element a x in let t := g_tile nb o x in
  0 <= lt < ax_local_nr_tiles a /\ ax_global_tile_from_local_tile a lt = t /\
  ax_tile_element_from_global_element a x = x - g_first nb o t /\ 0 <= x - g_first nb o t < g_len (l_size L) nb o t.
Proof using M.
  intros x Hx Ho. cbv zeta. destruct (T_elem_to_tile _ _ _ M x Hx) as (A & B & C & E). cbv zeta in *. rewrite g_tile_of in A.
  unfold ax_local_tile_from_global_element. rewrite A in *. rewrite (T_tile_owner_elems _ _ _ M), g_tile_of in Ho.
  pose proof (T_global_tile_inv _ _ _ M _ B Ho) as G.
  assert (LT : 0 <= ax_local_tile_from_global_tile a (g_tile nb o x) < ax_local_nr_tiles a).
  { rewrite (T_local_tile _ _ _ M), Ho, Z.eqb_refl by lia. rewrite (T_local_nr_tiles _ _ _ M). split; [apply count_bounds; lia|].
    apply count_lt; [lia|]. apply Z.eqb_eq. exact Ho. }
  split; [exact LT|]. split; [exact G|]. destruct (local_geo _ LT) as (H1 & H2 & _ & H4). rewrite G in *. rewrite H4 in E.
  rewrite (T_local_tile_size _ _ _ M _ LT), G in H2. lia.
Qed.
End axis.
Lemma g_tile_range : forall n nb o x, 0 < nb -> 0 <= o < nb -> 0 <= x < n -> 0 <= g_tile nb o x /\ 0 <= x - g_first nb o (g_tile nb o x) < g_len n nb o (g_tile nb o x) /\ 0 <= g_first nb o (g_tile nb o x).
Proof.
  intros n nb o x A B C. unfold g_len, g_first, g_tile. pose proof (Z.div_mod (o + x) nb ltac:(lia)). pose proof (Z.mod_pos_bound (o + x) nb A).
  pose proof (Z.div_pos (o + x) nb ltac:(lia) A). nia.
Qed.
