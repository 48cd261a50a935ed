(** * The distributed reduction to standard form computes what the local one does. *)
From Coq Require Import ZArith Lia List Bool Sorting.Sorted.
From Verif Require Import CInt Loop StarField DenseSpec Tiling DenseJobs TileJobs Reorder DistModel DistSpec DistBuilt DistThms DistMachine DistGrid PanelModel PanelProofs DistSim DistProg DistPhase CholeskyModel CholeskyProofs GenToStdModel GenToStdProofs DistCholeskyModel DistCholeskyProofs DistInverseModel DistGenToStdModel.
Import ListNotations.
Local Open Scope Z_scope.

(** ** The order of the distributed program: the updates of the columns c < k with row k of L are done in step k *)
Section order.
Context {K : starfield} (kn : kernels K) (t : tiling) (u : uplo).
Notation N := (tl_n t).
Notation tA := (tu u).
Notation tL := (GenToStdProofs.tL u).
Definition d_head (k : Z) : list (tjob (mat K)) := [g_hg kn t u k] ++ (if k =? N - 1 then [] else g_pan kn t u k ++ g_trl kn t u k ++ g_hms kn t u k).
Definition d_fs (k : Z) : list (tjob (mat K)) := for_up 0 k (fun c => [g_fs kn t u c k]).
Definition d_g2 (k : Z) : list (tjob (mat K)) := for_up 0 k (fun c => for_up (k + 1) N (fun i => [g_g2 kn t u c k i])).
Definition g_dstep (k : Z) : list (tjob (mat K)) := d_fs k ++ d_g2 k ++ d_head k.
Inductive gkey := KH (k : Z) | KT (j c : Z) | KG (j c : Z).
Definition gJ (x : gkey) : list (tjob (mat K)) :=
  match x with KH k => d_head k | KT j c => [g_fs kn t u c j] | KG j c => for_up (j + 1) N (fun i => [g_g2 kn t u c j i]) end.
Definition k_loc : list gkey := flat_map (fun k => [KH k] ++ flat_map (fun j => [KT j k; KG j k]) (zrange (k + 1) N)) (zrange 0 N).
Definition k_dis : list gkey := flat_map (fun k => flat_map (fun c => [KT k c]) (zrange 0 k) ++ flat_map (fun c => [KG k c]) (zrange 0 k) ++ [KH k]) (zrange 0 N).
Lemma flat_flat : forall {A B C} (f : B -> list C) (g : A -> list B) l, flat_map f (flat_map g l) = flat_map (fun x => flat_map f (g x)) l.
Proof using. intros A B C f g l. induction l as [|x l IH]; [reflexivity|]. cbn [flat_map]. rewrite flat_map_app, IH. reflexivity. Qed.
Lemma loc_jobs : flat_map gJ k_loc = gen_to_std kn t u.
Proof using.
  rewrite g2s_generic. unfold k_loc, for_up. rewrite flat_flat. apply flat_map_ext_in. intros k Ik. apply in_zrange in Ik. rewrite flat_map_app, flat_flat. cbn [flat_map gJ]. rewrite app_nil_r. unfold d_head, g_gstep. rewrite <- app_assoc. f_equal.
  destruct (Z.eqb_spec k (N - 1)) as [->|NE].
  - rewrite zrange_nil by lia. reflexivity.
  - rewrite <- !app_assoc. f_equal. f_equal. f_equal. unfold g_slv, g_sol, for_up. apply flat_map_ext_in. intros j _. cbn [flat_map gJ]. rewrite app_nil_r. reflexivity.
Qed.
Lemma dis_jobs : flat_map gJ k_dis = for_up 0 N g_dstep.
Proof using.
  unfold k_dis, for_up. rewrite flat_flat. apply flat_map_ext_in. intros k _. rewrite !flat_map_app, !flat_flat. unfold g_dstep, d_fs, d_g2, for_up. cbn [flat_map gJ]. rewrite app_nil_r. f_equal. f_equal.
  apply flat_map_ext_in. intros c _. cbn [flat_map]. rewrite app_nil_r. reflexivity.
Qed.
Definition kc x := match x with KH k => k | KT _ c => c | KG _ c => c end.
Definition kj x := match x with KH k => k | KT j _ => j | KG j _ => j end.
Definition kd1 x := match x with KH _ => 0 | KT _ _ => 0 | KG _ _ => 1 end.
Definition kd2 x := match x with KH _ => 2 | KT _ _ => 0 | KG _ _ => 1 end.
Definition lt_loc (a b : gkey) : Prop := kc a < kc b \/ kc a = kc b /\ (kj a < kj b \/ kj a = kj b /\ kd1 a < kd1 b).
Definition lt_dis (a b : gkey) : Prop := kj a < kj b \/ kj a = kj b /\ (kd2 a < kd2 b \/ kd2 a = kd2 b /\ kc a < kc b).
Definition in_prog (x : gkey) : Prop := match x with KH k => 0 <= k < N | KT j c | KG j c => 0 <= c < j /\ j < N end.
Lemma in_loc : forall x, In x k_loc <-> in_prog x.
Proof using.
  intros x. unfold k_loc. rewrite in_flat_map. split.
  - intros (k & Ik & I0). apply in_zrange in Ik. apply in_app_or in I0 as [[<-|[]]|I0]; [exact Ik|]. apply in_flat_map in I0 as (j & Ij & I0). apply in_zrange in Ij. destruct I0 as [<-|[<-|[]]]; cbn; lia.
  - intros I0. exists (kc x). destruct x as [k|j c|j c]; cbn in *; (split; [apply in_zrange; lia|]); [left; reflexivity| |]; right; apply in_flat_map; exists j; (split; [apply in_zrange; lia|]); cbn; auto.
Qed.
Lemma in_dis : forall x, In x k_dis <-> in_prog x.
Proof using.
  intros x. unfold k_dis. rewrite in_flat_map. split.
  - intros (k & Ik & I0). apply in_zrange in Ik. apply in_app_or in I0 as [I0|I0]; [|apply in_app_or in I0 as [I0|[<-|[]]]; [|exact Ik]];
    apply in_flat_map in I0 as (c & Ic & [<-|[]]); apply in_zrange in Ic; cbn; lia.
  - intros I0. exists (kj x). destruct x as [k|j c|j c]; cbn in *; (split; [apply in_zrange; lia|]); apply in_or_app; [right; apply in_or_app; right; left; reflexivity|left|right; apply in_or_app; left];
    apply in_flat_map; exists c; (split; [apply in_zrange; lia|left; reflexivity]).
Qed.
Lemma sorted_loc : StronglySorted lt_loc k_loc.
Proof using.
  unfold k_loc. apply sorted_flat; [apply zrange_sorted| |].
  - intros k Ik. apply sorted_app; [apply sorted_one| |].
    + apply sorted_flat; [apply zrange_sorted| |].
      * intros j Ij. constructor; [constructor; constructor|]. constructor; [|constructor]. unfold lt_loc. cbn. lia.
      * intros i j a b Ii Ij L [<-|[<-|[]]] [<-|[<-|[]]]; unfold lt_loc; cbn; lia.
    + intros x y [<-|[]] Iy. apply in_flat_map in Iy as (j & Ij & Iy). apply in_zrange in Ij. destruct Iy as [<-|[<-|[]]]; unfold lt_loc; cbn; lia.
  - intros i j a b Ii Ij L Ia Ib.
    assert (kc a = i) by (apply in_app_or in Ia as [[<-|[]]|Ia]; [reflexivity|]; apply in_flat_map in Ia as (q & _ & [<-|[<-|[]]]); reflexivity).
    assert (kc b = j) by (apply in_app_or in Ib as [[<-|[]]|Ib]; [reflexivity|]; apply in_flat_map in Ib as (q & _ & [<-|[<-|[]]]); reflexivity).
    unfold lt_loc. lia.
Qed.
Lemma sorted_dis : StronglySorted lt_dis k_dis.
Proof using.
  unfold k_dis. apply sorted_flat; [apply zrange_sorted| |].
  - intros k Ik. apply sorted_app; [|apply sorted_app; [|apply sorted_one|]|].
    + apply sorted_flat; [apply zrange_sorted|intros; apply sorted_one|]. intros i j a b _ _ L [<-|[]] [<-|[]]; unfold lt_dis; cbn; lia.
    + apply sorted_flat; [apply zrange_sorted|intros; apply sorted_one|]. intros i j a b _ _ L [<-|[]] [<-|[]]; unfold lt_dis; cbn; lia.
    + intros x y Ix [<-|[]]. apply in_flat_map in Ix as (c & _ & [<-|[]]). unfold lt_dis. cbn. lia.
    + intros x y Ix Iy. apply in_flat_map in Ix as (c & _ & [<-|[]]). apply in_app_or in Iy as [Iy|[<-|[]]]; [apply in_flat_map in Iy as (c' & _ & [<-|[]])|]; unfold lt_dis; cbn; lia.
  - assert (G : forall i a, In a (flat_map (fun c => [KT i c]) (zrange 0 i) ++ flat_map (fun c => [KG i c]) (zrange 0 i) ++ [KH i]) -> kj a = i).
    { intros i a Ia. apply in_app_or in Ia as [Ia|Ia]; [|apply in_app_or in Ia as [Ia|[<-|[]]]; [|reflexivity]]; apply in_flat_map in Ia as (c & _ & [<-|[]]); reflexivity. }
    intros i j a b Ii Ij L Ia Ib. unfold lt_dis. rewrite (G _ _ Ia), (G _ _ Ib). lia.
Qed.
(** the columns that a job writes and reads *)
Definition colp (p : Z -> Prop) (x : tjob (mat K)) : Prop :=
  (exists a b, tj_out x = tA a b /\ p b) /\ forall y, In y (tj_in x) -> (exists a b, y = tA a b /\ p b) \/ exists a b, y = tL a b.
Lemma noconf : forall p q x y, colp p x -> colp q y -> (forall b, p b -> q b -> False) -> ~ Reorder.conflict x y.
Proof using.
  intros p q x y ((a & b & EO & PB) & IX) ((a' & b' & EO' & QB) & IY) D0. assert (INJ : forall a b a' b', tA a b = tA a' b' -> b = b') by (intros ? ? ? ? E; apply tu_inj in E; tauto).
  intros [E|[E|E]].
  - rewrite EO, EO' in E. apply INJ in E. subst. eauto.
  - rewrite EO in E. destruct (IY _ E) as [(c & d & F & G)|(c & d & F)]; [apply INJ in F; subst; eauto|exact (tA_tL _ _ _ _ _ F)].
  - rewrite EO' in E. destruct (IX _ E) as [(c & d & F & G)|(c & d & F)]; [apply INJ in F; subst; eauto|exact (tA_tL _ _ _ _ _ F)].
Qed.
Lemma col_head : forall k x, In x (d_head k) -> colp (fun b => k <= b) x.
Proof using.
  intros k x. unfold d_head. intros I0. apply in_app_or in I0 as [[<-|[]]|I0].
  - split; [exists k, k; split; [reflexivity|lia]|]. intros y [<-|[]]. right. exists k, k. reflexivity.
  - destruct (k =? N - 1); [destruct I0|]. apply in_app_or in I0 as [I0|I0]; [|apply in_app_or in I0 as [I0|I0]].
    + apply in_flat_map in I0 as (i & Ii & I0). destruct I0 as [<-|[<-|[]]]; (split; [exists i, k; split; [reflexivity|lia]|]); intros y Iy; cbn in Iy.
      * destruct Iy as [<-|[]]. right. exists k, k. reflexivity.
      * destruct Iy as [<-|[<-|[]]]; [left; exists k, k; split; [reflexivity|lia]|right; exists i, k; reflexivity].
    + apply in_flat_map in I0 as (j & Ij & I0). apply in_zrange in Ij. apply in_app_or in I0 as [[<-|[]]|I0].
      * split; [exists j, j; split; [reflexivity|lia]|]. intros y [<-|[<-|[]]]; [left; exists j, k; split; [reflexivity|lia]|right; exists j, k; reflexivity].
      * apply in_flat_map in I0 as (i & Ii & I0). split; [exists i, j; split; [eapply gp_out; exact I0|lia]|]. intros y Iy. destruct (gp_in kn t u k i j x y I0 Iy) as [->|[->|(a & b & ->)]].
        { left. exists i, k. split; [reflexivity|lia]. } { left. exists j, k. split; [reflexivity|lia]. } { right. exists a, b. reflexivity. }
    + apply in_flat_map in I0 as (i & Ii & [<-|[]]). split; [exists i, k; split; [reflexivity|lia]|]. intros y [<-|[<-|[]]]; [left; exists k, k; split; [reflexivity|lia]|right; exists i, k; reflexivity].
Qed.
Lemma col_T : forall j c x, In x (gJ (KT j c)) -> colp (fun b => b = c) x.
Proof using. intros j c x [<-|[]]. split; [exists j, c; auto|]. intros y [<-|[]]. right. exists j, j. reflexivity. Qed.
Lemma col_G : forall j c x, In x (gJ (KG j c)) -> colp (fun b => b = c) x.
Proof using.
  intros j c x I0. cbn [gJ] in I0. apply in_flat_map in I0 as (i & _ & [<-|[]]). split; [exists i, c; split; [apply g2_out|reflexivity]|]. intros y Iy. apply g2_in in Iy as [-> | ->]; [left; exists j, c; auto|right; exists i, j; reflexivity].
Qed.
Lemma col_TG : forall x, match x with KH _ => False | _ => True end -> forall y, In y (gJ x) -> colp (fun b => b = kc x) y.
Proof using. intros [k|j c|j c] H y Iy; [destruct H|apply (col_T j); exact Iy|apply (col_G j); exact Iy]. Qed.
Theorem g2s_order : forall st x, trun (for_up 0 N g_dstep) st x = trun (gen_to_std kn t u) st x.
Proof using.
  intros st x. rewrite <- loc_jobs, <- dis_jobs. symmetry. apply (trun_reorder_blocks gJ lt_loc lt_dis).
  - apply sorted_loc.
  - apply sorted_dis.
  - intros y. unfold lt_loc. lia.
  - intros y z. unfold lt_dis. lia.
  - intros y. rewrite in_loc, in_dis. tauto.
  - intros a b Ia Ib L (p & q & Ip & Iq & CF). apply in_loc in Ia. apply in_loc in Ib.
    assert (TG : forall a b, match a with KH _ => False | _ => True end -> match b with KH _ => False | _ => True end -> lt_loc a b -> forall p q, In p (gJ a) -> In q (gJ b) -> Reorder.conflict p q -> lt_dis a b).
    { clear. intros a b Ha Hb L p q Ip Iq CF. destruct (Z.eq_dec (kc a) (kc b)) as [E|NE].
      - unfold lt_loc in L. unfold lt_dis. destruct a, b; try contradiction; cbn in *; lia.
      - exfalso. apply (noconf (fun c => c = kc a) (fun c => c = kc b) p q); [apply col_TG; assumption|apply col_TG; assumption|intros; congruence|exact CF]. }
    destruct a as [k|j c|j c] eqn:EA, b as [k'|j' c'|j' c'] eqn:EB; try (refine (TG _ _ _ _ L p q Ip Iq CF); exact I).
    + unfold lt_loc in L. unfold lt_dis. cbn in *. lia.
    + unfold lt_loc in L. unfold lt_dis. cbn in *. lia.
    + unfold lt_loc in L. unfold lt_dis. cbn in *. lia.
    + destruct (Z_le_gt_dec j k') as [LE|GT]; [unfold lt_dis; cbn; lia|]. exfalso. unfold lt_loc in L. cbn in L, Ia.
      apply (noconf (fun b => b = c) (fun b => k' <= b) p q); [apply (col_T j); exact Ip|apply col_head; exact Iq|intros bb -> Lb; lia|exact CF].
    + destruct (Z_le_gt_dec j k') as [LE|GT]; [unfold lt_dis; cbn; lia|]. exfalso. unfold lt_loc in L. cbn in L, Ia.
      apply (noconf (fun b => b = c) (fun b => k' <= b) p q); [apply (col_G j); exact Ip|apply col_head; exact Iq|intros bb -> Lb; lia|exact CF].
Qed.
End order.
