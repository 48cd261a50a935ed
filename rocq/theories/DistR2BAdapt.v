(** * Distributed reduction_to_band: the branches of the panel task are decided by the data. *)
From Coq Require Import ZArith Lia List Bool Permutation.
From Verif Require Import CInt Loop StarField DenseSpec Tiling DenseJobs TileJobs HouseSpec HouseModel MultiJobs Red2BandModel
  DistModel CopyProofs DistMachine DistAdapt DistGrid PanelModel DistLocal DistInverseModel DistTriModel DistMultModel DistBtR2BModel DistR2BModel.
Import ListNotations.
Local Open Scope Z_scope.

(** the recorded values (DistR2BModel.p_branch), the branch taken for one (reduction_to_band/impl.h:653: continue if tau is 0) *)
Definition r2b_rec (t : tid) : bool := t_mat t =? 18.
Definition r2b_decide {K : starfield} (a : mat K) : bool := if feq_dec K (a 0 0) f0 then false else true.
(** the program of rank r for given decisions *)
Definition dist_red2band_if {K : starfield} (kn : kernels K) (rs : roots K) (P Q n mb b : Z) (D : coord -> Z -> axis) (avail minwork avail_t : Z -> Z)
  (d : tid -> bool) (r : Z) : list (act (mat K)) :=
  dist_red2band kn rs P Q n mb b D avail minwork avail_t (fun r j c => d (qBr r j c)) r.

(** ** Writers of recorded values *)
Definition recs {V} (l : list (act V)) : list tid := flat_map (fun a => filter r2b_rec (act_writes a)) l.
Lemma recs_app : forall {V} (l m : list (act V)), recs (l ++ m) = recs l ++ recs m. Proof. intros. apply flat_map_app. Qed.
Lemma recs_flat : forall {V A} (f : A -> list (act V)) l, recs (flat_map f l) = flat_map (fun x => recs (f x)) l.
Proof. intros V A f l. induction l as [|x l IH]; [reflexivity|]. cbn [flat_map]. rewrite recs_app, IH. reflexivity. Qed.
Lemma recs_once : forall {V} (l : list (act V)) i i' a a' t, NoDup (recs l) -> nth_error l i = Some a -> nth_error l i' = Some a' ->
  In t (act_writes a) -> In t (act_writes a') -> r2b_rec t = true -> i = i'.
Proof.
  intros V l. induction l as [|x l IH]; intros i i' a a' t ND N N' W W' RC; [destruct i; discriminate|].
  unfold recs in ND. cbn [flat_map] in ND.
  assert (X : forall k c, nth_error l k = Some c -> In t (act_writes c) -> In t (flat_map (fun a => filter r2b_rec (act_writes a)) l)).
  { intros k c Nk Wk. apply in_flat_map. exists c. split; [apply (nth_error_In _ _ Nk)|apply filter_In; auto]. }
  assert (DJ : forall y, In y (filter r2b_rec (act_writes x)) -> ~ In y (recs l)).
  { intros y Y1 Y2. revert ND. induction (filter r2b_rec (act_writes x)) as [|z f IHf]; [destruct Y1|]. cbn. intros ND. inversion ND as [|? ? NI ND']. subst. destruct Y1 as [-> | Y1]; [apply NI; apply in_or_app; right; exact Y2|apply (IHf Y1 ND')]. }
  assert (ND' : NoDup (recs l)) by (clear -ND; induction (filter r2b_rec (act_writes x)) as [|z f IHf]; [exact ND|cbn in ND; inversion ND; auto]).
  destruct i as [|i], i' as [|i']; cbn in N, N'.
  - reflexivity.
  - exfalso. assert (x = a) as -> by congruence. apply (DJ t); [apply filter_In; auto|apply (X i' a' N' W')].
  - exfalso. assert (x = a') as -> by congruence. apply (DJ t); [apply filter_In; auto|apply (X i a N W)].
  - f_equal. apply (IH i i' a a' t ND' N N' W W' RC).
Qed.
Definition nrec {V} (l : list (act V)) : Prop := forall a t, In a l -> In t (act_writes a) -> t_mat t <> 18.
Lemma nrec_recs : forall {V} (l : list (act V)), nrec l -> recs l = [].
Proof.
  intros V l. induction l as [|a l IH]; intros H; [reflexivity|]. unfold recs. cbn [flat_map]. change (flat_map (fun a => filter r2b_rec (act_writes a)) l) with (recs l).
  rewrite IH by (intros x t I0; apply H; right; exact I0). rewrite app_nil_r.
  assert (X : forall t, In t (act_writes a) -> t_mat t <> 18) by (intros t; apply H; left; reflexivity). clear -X. induction (act_writes a) as [|t w IH]; [reflexivity|].
  cbn. unfold r2b_rec at 1. destruct (Z.eqb_spec (t_mat t) 18) as [E|_]; [exfalso; apply (X t (or_introl eq_refl) E)|]. apply IH. intros u U. apply X. right. exact U.
Qed.
Lemma recs_l : forall {V} (l m : list (act V)), nrec l -> recs (l ++ m) = recs m.
Proof. intros V l m H. rewrite recs_app, nrec_recs by exact H. reflexivity. Qed.
Lemma nrec_nil : forall {V}, nrec (V := V) []. Proof. intros V a t []. Qed.
Lemma nrec_app : forall {V} (l m : list (act V)), nrec l -> nrec m -> nrec (l ++ m).
Proof. intros V l m A B a t I0. apply in_app_or in I0 as [I0|I0]; [apply A|apply B]; exact I0. Qed.
Lemma nrec_flat : forall {V A} (f : A -> list (act V)) l, (forall x, nrec (f x)) -> nrec (flat_map f l).
Proof. intros V A f l H a t I0. apply in_flat_map in I0 as (x & _ & I0). apply (H x a t I0). Qed.
Definition jrec {V} (l : list (tjob V)) : Prop := forall a, In a l -> t_mat (tj_out a) <> 18.
Lemma jrec_loc : forall {V} (l : list (tjob V)), jrec l -> nrec (map ALoc l).
Proof. intros V l H a t I0. apply in_map_iff in I0 as (x & <- & I0). cbn. intros [<- | []]. apply H. exact I0. Qed.
Lemma jrec_nil : forall {V}, jrec (V := V) []. Proof. intros V a []. Qed.
Lemma jrec_cons : forall {V} a (l : list (tjob V)), t_mat (tj_out a) <> 18 -> jrec l -> jrec (a :: l).
Proof. intros V a l A B x [<- | I0]; [exact A|apply B; exact I0]. Qed.
Lemma jrec_app : forall {V} (l m : list (tjob V)), jrec l -> jrec m -> jrec (l ++ m).
Proof. intros V l m A B a I0. apply in_app_or in I0 as [I0|I0]; [apply A|apply B]; exact I0. Qed.
Lemma jrec_flat : forall {V A} (f : A -> list (tjob V)) l, (forall x, jrec (f x)) -> jrec (flat_map f l).
Proof. intros V A f l H a I0. apply in_flat_map in I0 as (x & _ & I0). apply (H x a I0). Qed.
Lemma jrec_map : forall {V A} (f : A -> tjob V) l, (forall x, t_mat (tj_out (f x)) <> 18) -> jrec (map f l).
Proof. intros V A f l H a I0. apply in_map_iff in I0 as (x & <- & I0). apply H. Qed.
Lemma nrec_com : forall {V} (a : cact V), (forall t, ca_out a = Some t -> t_mat t <> 18) -> nrec [ACom a].
Proof. intros V a H x t [<- | []] I0. cbn in I0. destruct (ca_out a) as [u|]; [|destruct I0]. destruct I0 as [<- | []]. apply H. reflexivity. Qed.
(** broadcasts *)
Lemma nrec_bc : forall {V} P Q D rc r root p, p_id p <> 18 -> nrec (panel_broadcast (V := V) P Q D rc r root p).
Proof.
  intros V P Q D rc r root p H. unfold panel_broadcast. destruct (gs P Q (other rc) <=? 1); [apply nrec_nil|]. apply nrec_flat. intros l. apply nrec_com. intros t. destruct (co Q (other rc) r =? root); cbn; [discriminate|]. injection 1 as <-. cbn. exact H.
Qed.
Lemma nrec_bc2 : forall {V} P Q D rc r root p pT, p_id p <> 18 -> p_id pT <> 18 ->
  nrec (fst (panel_broadcast2 (V := V) P Q D rc r root p pT)).
Proof.
  intros V P Q D rc r root p pT H HT. unfold panel_broadcast2. destruct (p_lo p =? p_hi p); [apply nrec_nil|].
  set (L := zrange (p_lo pT) (p_hi pT)).
  assert (X : forall acc : list (act V) * panel, nrec (fst acc) -> p_id (snd acc) <> 18 -> nrec (fst (fold_left (fun acc k => bcastT_step P Q D rc r p k acc) L acc))).
  { induction L as [|k L IH]; intros acc A1 A2; [exact A1|]. cbn [fold_left]. apply IH; unfold bcastT_step; cbv zeta; destruct (t_own Q D r (other rc) k =? co Q (other rc) r); try assumption; destruct (t_own Q D r rc k =? co Q rc r); cbn [fst snd]; try assumption.
    - apply nrec_app; [exact A1|]. destruct (1 <? gs P Q rc); [|apply nrec_nil]. apply nrec_com. cbn. discriminate.
    - apply nrec_app; [exact A1|]. destruct (1 <? gs P Q rc); [|apply nrec_nil]. apply nrec_com. cbn. injection 1 as <-. exact A2. }
  specialize (X ([], pT) (nrec_nil) HT). destruct (fold_left _ L ([], pT)) as [s2 pT']. cbn [fst] in *. apply nrec_app; [apply nrec_bc; exact H|exact X].
Qed.

Section r2b.
Context {K : starfield} (kn : kernels K) (rs : roots K) (P Q n mb b : Z) (D : coord -> Z -> axis) (avail minwork avail_t : Z -> Z).
Notation prog := (dist_red2band_if kn rs P Q n mb b D avail minwork avail_t).
Ltac mm := unfold mV, mW, mX, mVt, mWt, mXt in *; match goal with |- context [?j mod 2] => pose proof (Z.mod_pos_bound j 2 eq_refl) end; lia.
Lemma pV_id : forall r j, p_id (pV_linked Q mb b D r j) = mV j.
Proof using.
  intros r j. unfold pV_linked. destruct (_ && _)%bool; [|reflexivity]. generalize (tl_rows Q mb b D r j). intros L.
  assert (X : forall p, p_id p = mV j -> p_id (fold_left (fun p l => set_tile p (t_gl Q D r Row l) (atile Q mb b D r j l)) L p) = mV j) by (induction L as [|l L IH]; intros p E; [exact E|cbn [fold_left]; apply IH; exact E]).
  apply X. reflexivity.
Qed.
Lemma pT_id : forall r j id, p_id (pT_fresh Q mb b D r j id) = id.
Proof using. intros. unfold pT_fresh. destruct (_ =? _); reflexivity. Qed.
Lemma pXt_id : forall r j, p_id (pXt_fresh Q mb b D r j) = mXt j.
Proof using. intros. unfold pXt_fresh. destruct (_ =? _); [reflexivity|apply pT_id]. Qed.

Lemma step_recs : forall dec r j c, recs (p_step rs P Q n mb b D avail minwork dec r j c) = [qBr r j c].
Proof using.
  intros dec r j c. unfold p_step. rewrite recs_l; [|apply (jrec_loc [_]); apply jrec_cons; [cbn; lia|apply jrec_nil]].
  rewrite recs_l; [|apply nrec_com; cbn; injection 1 as <-; cbn; lia]. rewrite !map_app, <- !app_assoc.
  rewrite recs_l; [|apply jrec_loc; apply jrec_cons; [cbn; lia|apply jrec_nil]].
  rewrite recs_l; [|apply jrec_loc; apply jrec_map; intros x; cbn; lia].
  rewrite recs_app. assert (E : recs (map ALoc [p_branch (K := K) r j c]) = [qBr r j c]) by reflexivity. rewrite E. cbn [app]. f_equal.
  apply nrec_recs. destruct (_ && _)%bool; [|apply nrec_nil]. rewrite <- ?app_assoc.
  apply nrec_app; [apply jrec_loc; unfold p_head; destruct (head Q mb b D r j); [|apply jrec_nil]; apply jrec_cons; [cbn; lia|]; apply jrec_cons; [cbn; lia|apply jrec_nil]|].
  apply nrec_app; [apply jrec_loc; apply jrec_map; intros x; cbn; lia|].
  apply nrec_app; [apply jrec_loc; apply jrec_cons; [cbn; lia|apply jrec_nil]|].
  apply (nrec_app [_]); [apply nrec_com; cbn; injection 1 as <-; cbn; lia|].
  apply nrec_app; [apply jrec_loc; apply jrec_flat; intros k; apply jrec_map; intros x; cbn; lia|].
  apply jrec_loc. unfold p_restore. destruct (head Q mb b D r j); [|apply jrec_nil]. apply jrec_cons; [cbn; lia|apply jrec_nil].
Qed.
(** everything after the panel *)
Lemma rest_nrec : forall dec r j, recs (dr2b_step kn rs P Q n mb b D avail minwork avail_t dec r j) =
  if on_panel Q mb b D r j then map (qBr r j) (zrange 0 (n_refl n b j)) else [].
Proof using.
  intros dec r j. unfold dr2b_step. rewrite recs_app.
  assert (ST : nrec (q_sum_T (K := K) P Q r j)) by (unfold q_sum_T; destruct (1 <? P); [|apply nrec_nil]; apply nrec_com; cbn; injection 1 as <-; cbn; lia).
  assert (E2 : forall l : list (act (mat K)), nrec l -> recs (if e_row b j <? n then l else []) = []) by (intros l H; destruct (_ <? _); [apply nrec_recs; exact H|reflexivity]).
  assert (PV : p_id (pV_linked Q mb b D r j) <> 18) by (rewrite pV_id; mm).
  assert (JX : jrec (q_X kn P Q n mb b D r j)).
  { unfold q_X. apply jrec_flat. intros li. intros a I0. unfold for_down in I0. apply in_flat_map in I0 as (lk & _ & I0). cbv zeta in I0. destruct (_ =? _).
    - destruct I0 as [<- | []]. cbn [tj_out p_int pX_empty fresh_panel p_id t_mat]. mm.
    - destruct I0 as [<- | [<- | []]]; cbn [tj_out]; [cbn [p_int pX_empty fresh_panel p_id t_mat]; mm|]. destruct (_ =? _); [cbn [p_int pX_empty fresh_panel p_id t_mat]; mm|].
      unfold p_int, pXt_work. cbn [t_mat]. rewrite pT_id. mm. }
  rewrite E2; [rewrite app_nil_r|].
  - destruct (on_panel Q mb b D r j); [|reflexivity]. rewrite recs_app. unfold p_panel. rewrite recs_flat.
    replace (flat_map (fun x => recs (p_step rs P Q n mb b D avail minwork dec r j x)) (zrange 0 (n_refl n b j))) with (map (qBr r j) (zrange 0 (n_refl n b j))).
    2:{ induction (zrange 0 (n_refl n b j)) as [|c L IH]; [reflexivity|]. cbn [map flat_map]. rewrite step_recs, <- IH. reflexivity. }
    rewrite nrec_recs; [apply app_nil_r|]. apply nrec_app; [|apply nrec_app; [exact ST|apply jrec_loc; apply jrec_cons; [cbn; lia|apply jrec_nil]]].
    apply jrec_loc. apply jrec_app; [|apply jrec_app; (apply jrec_cons; [cbn; lia|apply jrec_nil])].
    unfold q_setup_V. apply jrec_app.
    + destruct (head Q mb b D r j); [|apply jrec_nil]. apply jrec_cons; [exact PV|]. apply jrec_cons; [exact PV|apply jrec_nil].
    + apply jrec_flat. intros l. destruct (fullb mb b); [apply jrec_nil|]. apply jrec_cons; [exact PV|apply jrec_nil].
  - apply nrec_app; [apply nrec_bc2; [exact PV|rewrite pT_id; mm]|].
    apply nrec_app; [destruct (on_panel Q mb b D r j); [|apply nrec_nil]; apply jrec_loc; apply jrec_map; intros x; cbn [tj_out p_int pW_empty fresh_panel p_id t_mat]; mm|].
    apply nrec_app; [apply nrec_bc2; [cbn [pW_empty fresh_panel p_id]; mm|rewrite pT_id; mm]|].
    apply nrec_app; [apply jrec_loc; apply jrec_app; [|apply jrec_app; [|exact JX]]|].
    { apply jrec_map. intros x. cbn [jset0 tj_out p_int pX_empty fresh_panel p_id t_mat]. mm. }
    { apply jrec_map. intros x. unfold pXt_work. cbn [jset0 tj_out p_int t_mat]. rewrite pT_id. mm. }
    apply nrec_app.
    { unfold q_red_col. destruct (1 <? P); [|apply nrec_nil]. apply nrec_flat. intros lk. apply nrec_com. intros t. destruct (_ =? _); cbn [ca_out rrecv rsend]; [|discriminate]. injection 1 as <-. cbn [p_int pX_empty fresh_panel p_id t_mat]. mm. }
    apply nrec_app.
    { unfold q_red_row. destruct (1 <? Q); [|apply nrec_nil]. apply nrec_flat. intros l. apply nrec_com. intros t. destruct (_ =? _); cbn [ca_out rrecv rsend]; [|discriminate]. injection 1 as <-. cbn [p_int pX_empty fresh_panel p_id t_mat]. mm. }
    apply nrec_app.
    { destruct (on_panel Q mb b D r j); [|apply nrec_nil]. apply nrec_app; [|apply nrec_app; [exact ST|]]; apply jrec_loc.
      - apply jrec_cons; [cbn; lia|]. apply jrec_map. intros x. cbn. lia.
      - apply jrec_map. intros x. cbn [jgemm tj_out p_int pX_empty fresh_panel p_id t_mat]. mm. }
    apply nrec_app; [apply nrec_bc2; [cbn [pX_empty fresh_panel p_id]; mm|rewrite pXt_id; mm]|].
    apply nrec_app; apply jrec_loc.
    + unfold q_trigger. destruct (_ =? _); [|apply jrec_nil]. apply jrec_cons; [cbn; lia|apply jrec_nil].
    + unfold q_update. apply jrec_flat. intros li. apply jrec_flat. intros lk. cbv zeta. destruct (_ =? _); [apply jrec_cons; [cbn; lia|apply jrec_nil]|]. apply jrec_cons; [cbn; lia|]. apply jrec_cons; [cbn; lia|apply jrec_nil].
Qed.
Lemma prog_recs : forall d r, recs (prog d r) = if r2b_nrefls n b =? 0 then [] else
  flat_map (fun j => if on_panel Q mb b D r j then map (qBr r j) (zrange 0 (n_refl n b j)) else []) (zrange 0 (r2b_ntiles n b)).
Proof using.
  intros d r. unfold dist_red2band_if, dist_red2band. destruct (_ =? _); [reflexivity|]. rewrite recs_flat. apply flat_map_ext. intros j. apply rest_nrec.
Qed.
Lemma prog_nodup : forall d r, NoDup (recs (prog d r)).
Proof using.
  intros d r. rewrite prog_recs. destruct (_ =? _); [constructor|].
  assert (ND := zrange_NoDup 0 (r2b_ntiles n b)). induction (zrange 0 (r2b_ntiles n b)) as [|j L IH]; [constructor|]. inversion ND as [|? ? NI ND']. subst. cbn [flat_map].
  apply CopyProofs.NoDup_app_iff'.
  - destruct (on_panel _ _ _ _ _ _); [|constructor]. apply FinFun.Injective_map_NoDup; [|apply zrange_NoDup]. intros x y E. unfold qBr in E. congruence.
  - apply IH. exact ND'.
  - intros t T1 T2. apply in_flat_map in T2 as (k & Ik & T2). destruct (on_panel Q mb b D r j); [|destruct T1]. destruct (on_panel Q mb b D r k); [|destruct T2].
    apply in_map_iff in T1 as (x & <- & _). apply in_map_iff in T2 as (y & E & _). unfold qBr in E. assert (k = j) by congruence. subst k. contradiction.
Qed.
(** the programs differ only after a branch *)
Lemma prog_pd : forall d1 d2 r, pd r2b_rec d1 d2 (prog d1 r) (prog d2 r).
Proof using.
  intros d1 d2 r. unfold dist_red2band_if, dist_red2band. destruct (_ =? _); [constructor|]. apply pd_flat. intros j _. unfold dr2b_step. apply pd_app; [|apply pd_refl].
  destruct (on_panel Q mb b D r j); [|constructor]. apply pd_app; [|apply pd_refl]. unfold p_panel. apply pd_flat. intros c _. unfold p_step. rewrite !map_app, <- !app_assoc.
  do 4 (apply pd_app; [apply pd_refl|]). cbn [map app]. apply pd_branch with (t := qBr r j c); [left; reflexivity|reflexivity|]. intros ->. apply pd_refl.
Qed.
(** the recorded values *)
Lemma rec_in : forall d r a t, In a (prog d r) -> In t (act_writes a) -> r2b_rec t = true ->
  exists j c, t = qBr r j c /\ 0 <= j < r2b_ntiles n b /\ r2b_nrefls n b <> 0 /\ on_panel Q mb b D r j = true /\ 0 <= c < n_refl n b j.
Proof using.
  intros d r a t Ia W RC. assert (I0 : In t (recs (prog d r))) by (apply in_flat_map; exists a; split; [exact Ia|apply filter_In; auto]).
  rewrite prog_recs in I0. destruct (Z.eqb_spec (r2b_nrefls n b) 0) as [|NZ]; [destruct I0|]. apply in_flat_map in I0 as (j & Ij & I0). apply in_zrange in Ij. destruct (on_panel Q mb b D r j) eqn:O; [|destruct I0].
  apply in_map_iff in I0 as (c & <- & Ic). apply in_zrange in Ic. exists j, c. auto.
Qed.
End r2b.
