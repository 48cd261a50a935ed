From Coq Require Import ZArith Lia List Bool Reals.
From Verif Require Import CInt Loop DistModel DenseJobs DistMachine DistGrid TridiagModel TridiagDeflation DcModel DcRotModel.
Import ListNotations.
Local Open Scope Z_scope.

(** ** A rank that owns a tile of the range takes part *)
Lemma own_in_range : forall G src rank a b t, 0 < G -> 0 <= src < G -> 0 <= rank < G -> 0 <= a <= t -> t < b ->
  rank_global_tile t 1 G src 0 = rank ->
  next_local_tile_from_global_tile b 1 G rank src 0 - next_local_tile_from_global_tile a 1 G rank src 0 <> 0.
Proof.
  intros G src rank a b t LG LS LR La Lb E. unfold rank_global_tile in E. rewrite Z.add_0_r, Z.quot_1_r, Z.rem_mod_nonneg in E by lia.
  unfold next_local_tile_from_global_tile. rewrite !Z.add_0_r, !Z.quot_1_r, !Z.rem_1_r, !Z.mul_1_r.
  replace (if rank =? src then 0 else 0) with 0 by (destruct (rank =? src); reflexivity).
  rewrite !Z.rem_mod_nonneg, !Z.quot_div_nonneg by lia.
  set (ro := (rank + G - src) mod G). assert (RO : 0 <= ro < G) by (apply Z.mod_pos_bound; lia).
  assert (TM : t mod G = ro).
  { unfold ro. rewrite <- E. replace ((t + src) mod G + G - src) with ((t + src) mod G + (G - src)) by lia. rewrite Z.add_mod_idemp_l by lia.
    replace (t + src + (G - src)) with (t + 1 * G) by lia. rewrite Z.mod_add by lia. reflexivity. }
  pose proof (Z.div_mod t G ltac:(lia)) as DT. rewrite TM in DT.
  pose proof (Z.div_mod a G ltac:(lia)) as DA. pose proof (Z.mod_pos_bound a G LG).
  pose proof (Z.div_mod b G ltac:(lia)) as DB. pose proof (Z.mod_pos_bound b G LG).
  set (at_ := t / G) in *. set (aa := a / G) in *. set (ab := b / G) in *. set (ma := a mod G) in *. set (mb := b mod G) in *.
  assert (A : aa < at_ \/ (aa = at_ /\ ma <= ro)) by nia.
  assert (B : ab > at_ \/ (ab = at_ /\ mb > ro)) by nia.
  destruct (Z.eqb_spec ro ma), (Z.eqb_spec ro mb), (Z.ltb_spec ro ma), (Z.ltb_spec ro mb); lia.
Qed.

Section proof.
Variables P Q mb n : Z.
Variable src : coord -> Z.
Hypothesis HP : 0 < P.
Hypothesis HQ : 0 < Q.
Hypothesis HMB : 0 < mb.
Hypothesis HS : forall rc, 0 <= src rc < gs P Q rc.
Notation rks := (ranks P Q).
Notation mem := (members P Q).
Notation trk := (tile_rank P Q src).
Notation off := (rc_off mb).
Notation lim := (rc_limit mb n).

Lemma gsp : forall rc, 0 < gs P Q rc. Proof using HP HQ. intros []; assumption. Qed.
Lemma trk_range : forall rc t, 0 <= t -> 0 <= trk rc t < gs P Q rc.
Proof using HP HQ HS.
  intros rc t L. unfold tile_rank, rank_global_tile. rewrite Z.add_0_r, Z.quot_1_r. pose proof (gsp rc). pose proof (HS rc). rewrite Z.rem_mod_nonneg by lia. apply Z.mod_pos_bound. lia.
Qed.
Record rot_ok (c : rcall) (g : rotation R) : Prop := {
  ro_i : 0 <= r_i g < rc_size mb n c; ro_j : 0 <= r_j g < rc_size mb n c; ro_ij : r_i g <> r_j g }.
Definition call_ok (c : rcall) : Prop := 0 <= rc_begin c /\ Forall (rot_ok c) (rc_rots c).

(** the process column that dist_sub gives is the one of the matrix *)
Lemma sub_col : forall c j, 0 <= rc_begin c -> 0 <= j -> sub_rank P Q src c (Z.quot j mb) = trk Col ((off c + j) / mb).
Proof using HP HQ HMB HS.
  intros c j LB LJ. unfold sub_rank, tile_rank, rank_global_tile, rc_off. cbn [gs]. rewrite !Z.add_0_r, !Z.quot_1_r. pose proof (HS Col) as S. cbn [gs] in S.
  rewrite Z.quot_div_nonneg by lia. assert (0 <= j / mb) by (apply Z.div_pos; lia).
  rewrite (Z.add_comm (rc_begin c * mb)), Z.div_add by lia. pose proof (Z.mod_pos_bound (rc_begin c + src Col) Q HQ).
  rewrite !Z.rem_mod_nonneg by (try rewrite Z.rem_mod_nonneg by lia; lia). rewrite Z.add_mod_idemp_r by lia. f_equal. lia.
Qed.
Lemma range_own : forall rc c r i, In r rks -> 0 <= rc_begin c -> off c <= i < lim c -> trk rc (i / mb) = co Q rc r -> rc_range P Q src c rc r = true.
Proof using HP HQ HMB HS.
  intros rc c r i R LB Li E. unfold rc_range. apply negb_true_iff, Z.eqb_neq. unfold r_next. unfold rc_off, rc_limit in Li.
  pose proof (HS rc). pose proof (gsp rc). apply (in_ranks_rc P Q HP HQ rc) in R as [R _].
  apply own_in_range with (i / mb); try lia; [|apply Z.div_lt_upper_bound; lia|exact E].
  split; [exact LB|]. apply Z.div_le_lower_bound; lia.
Qed.

(** ** Choreography *)
Definition colx (c : rcall) (g : rotation R) : Z := trk Col ((off c + r_i g) / mb).
Definition coly (c : rcall) (g : rotation R) : Z := trk Col ((off c + r_j g) / mb).
Notation X c g r := (col_tid mb c r (r_i g) (co Q Col r =? colx c g)).
Notation Y c g r := (col_tid mb c r (r_j g) (co Q Col r =? coly c g)).
Notation jobs := (rot_jobs P Q mb n src).
Definition part (c : rcall) (g : rotation R) (r : Z) : cact column :=
  let hasX := co Q Col r =? colx c g in
  exchange P Q mb n src c r (rk Q (co Q Row r) (if hasX then coly c g else colx c g)) (if hasX then X c g r else Y c g r) (if hasX then Y c g r else X c g r).
Definition ejobs (c : rcall) (g : rotation R) (r : Z) : list (event column) := map (ELoc r) (jobs c r (X c g r) (Y c g r) g).
Definition egs (pr : Z) (c : rcall) (g : rotation R) : list (event column) :=
  let a := rk Q pr (colx c g) in let b := rk Q pr (coly c g) in
  if colx c g =? coly c g then ejobs c g a else EColl (chan c a b) (part c g) :: ejobs c g a ++ ejobs c g b.
Definition ecall (pr : Z) (c : rcall) : list (event column) :=
  if rc_range P Q src c Row (rk Q pr 0) then flat_map (egs pr c) (rc_rots c) else [].
Definition erow (calls : list rcall) (pr : Z) : list (event column) := flat_map (ecall pr) calls.
Definition choreo (calls : list rcall) : list (event column) := flat_map (erow calls) (zrange 0 P).

Lemma co_rk : forall a b, 0 <= a < P -> 0 <= b < Q -> co Q Row (rk Q a b) = a /\ co Q Col (rk Q a b) = b.
Proof using HP HQ. intros a b A B. apply (co_mk P Q HP HQ Row a b A B). Qed.
Lemma rk_co : forall r, rk Q (co Q Row r) (co Q Col r) = r.
Proof using HP HQ. intros r. apply (mk_co P Q HP HQ Row r). Qed.
Lemma rk_eqb : forall r pr pc, In r rks -> 0 <= pr < P -> 0 <= pc < Q -> (rk Q pr pc =? r) = (pr =? co Q Row r) && (co Q Col r =? pc).
Proof using HP HQ.
  intros r pr pc R A B. destruct (Z.eqb_spec (rk Q pr pc) r) as [<-|N].
  - destruct (co_rk pr pc A B) as [-> ->]. rewrite !Z.eqb_refl. reflexivity.
  - destruct (Z.eqb_spec pr (co Q Row r)) as [->|]; [|reflexivity]. destruct (Z.eqb_spec (co Q Col r) pc) as [<-|]; [|reflexivity]. exfalso. apply N. apply rk_co.
Qed.
Lemma proj_cons : forall r e (G : list (event column)), proj mem r (e :: G) = olist (eact mem r e) ++ proj mem r G. Proof. reflexivity. Qed.
Lemma proj_flat : forall {A} r (f : A -> list (event column)) l, proj mem r (flat_map f l) = flat_map (fun x => proj mem r (f x)) l.
Proof. intros A r f l. unfold proj. apply flat_map_flat_map. Qed.
Lemma proj_ejobs : forall r q c g, proj mem r (ejobs c g q) = if q =? r then map ALoc (jobs c q (X c g q) (Y c g q) g) else [].
Proof. intros. unfold ejobs, rot_jobs, proj. cbn [map flat_map eact]. destruct (q =? r); reflexivity. Qed.
Lemma memb_chan : forall c a b r, In r rks -> member mem (chan c a b) r = (r =? a) || (r =? b).
Proof using.
  intros c a b r R. unfold chan. destruct (member_spec mem (CP2P (Z.min a b) (Z.max a b) (rc_tag c)) r) as [I|N]; cbn in *.
  - apply filter_In in I as [_ I]. symmetry. lia.
  - destruct ((r =? a) || (r =? b)) eqn:E; [|reflexivity]. exfalso. apply N. apply filter_In. split; [exact R|lia].
Qed.
Lemma col_range : forall c g, 0 <= rc_begin c -> rot_ok c g -> 0 <= colx c g < Q /\ 0 <= coly c g < Q.
Proof using HP HQ HMB HS.
  intros c g LB [I J _]. unfold colx, coly, rc_off in *. split; apply (trk_range Col); apply Z.div_pos; nia.
Qed.
Lemma proj_egs : forall r pr c g, In r rks -> 0 <= pr < P -> 0 <= rc_begin c -> rot_ok c g ->
  proj mem r (egs pr c g) = if pr =? co Q Row r then rot_step P Q mb n src c r g else [].
Proof using HP HQ HMB HS.
  intros r pr c g R LP LB OK. destruct (col_range c g LB OK) as [LX LY]. unfold rot_step.
  rewrite !sub_col by (try exact LB; destruct OK; lia). fold (colx c g) (coly c g).
  assert (RX : co Q Col r = colx c g -> rk Q (co Q Row r) (colx c g) = r) by (intros <-; apply rk_co).
  assert (RY : co Q Col r = coly c g -> rk Q (co Q Row r) (coly c g) = r) by (intros <-; apply rk_co).
  unfold egs. destruct (Z.eqb_spec (colx c g) (coly c g)) as [E|E].
  - rewrite proj_ejobs, rk_eqb by assumption. destruct (Z.eqb_spec pr (co Q Row r)) as [->|]; [|reflexivity]. cbn [andb]. rewrite <- E.
    destruct (Z.eqb_spec (co Q Col r) (colx c g)) as [F|F]; [|reflexivity]. rewrite RX by exact F. rewrite F, Z.eqb_refl. reflexivity.
  - rewrite proj_cons. unfold proj at 1. rewrite flat_map_app. fold (proj mem r (ejobs c g (rk Q pr (colx c g)))) (proj mem r (ejobs c g (rk Q pr (coly c g)))).
    rewrite !proj_ejobs. cbn [eact]. rewrite memb_chan by assumption. rewrite !(Z.eqb_sym r). rewrite !rk_eqb by assumption.
    destruct (Z.eqb_spec pr (co Q Row r)) as [->|]; [|reflexivity]. cbn [andb]. unfold part.
    destruct (Z.eqb_spec (co Q Col r) (colx c g)) as [F|F], (Z.eqb_spec (co Q Col r) (coly c g)) as [F'|F']; try congruence; cbn [andb orb negb olist app].
    + rewrite RX by exact F. apply Z.eqb_eq in F. apply Z.eqb_neq in F'. rewrite F, F', app_nil_r. reflexivity.
    + rewrite RY by exact F'. apply Z.eqb_eq in F'. apply Z.eqb_neq in F. rewrite F, F'. reflexivity.
    + reflexivity.
Qed.
Lemma range_row : forall c r, In r rks -> rc_range P Q src c Row (rk Q (co Q Row r) 0) = rc_range P Q src c Row r.
Proof using HP HQ. intros c r R. apply (in_ranks P Q HP HQ) in R as [A _]. unfold rc_range, r_next. destruct (co_rk (co Q Row r) 0 A ltac:(lia)) as [-> _]. reflexivity. Qed.
Lemma rot_step_none : forall c r g, In r rks -> 0 <= rc_begin c -> rot_ok c g -> rc_range P Q src c Col r = false -> rot_step P Q mb n src c r g = [].
Proof using HP HQ HMB HS.
  intros c r g R LB OK N. unfold rot_step. rewrite !sub_col by (try exact LB; destruct OK; lia). fold (colx c g) (coly c g). destruct OK as [I J _].
  unfold rc_size in I, J.
  destruct (Z.eqb_spec (co Q Col r) (colx c g)) as [E|_]; [rewrite (range_own Col c r (off c + r_i g) R LB) in N; [discriminate|lia|symmetry; exact E]|].
  destruct (Z.eqb_spec (co Q Col r) (coly c g)) as [E|_]; [rewrite (range_own Col c r (off c + r_j g) R LB) in N; [discriminate|lia|symmetry; exact E]|]. reflexivity.
Qed.
Lemma proj_ecall : forall r pr c, In r rks -> 0 <= pr < P -> call_ok c -> proj mem r (ecall pr c) = if pr =? co Q Row r then rc_prog P Q mb n src c r else [].
Proof using HP HQ HMB HS.
  intros r pr c R LP [LB OK]. rewrite Forall_forall in OK. unfold ecall, rc_prog. destruct (Z.eqb_spec pr (co Q Row r)) as [->|N].
  - rewrite range_row by exact R. destruct (rc_range P Q src c Row r); [|reflexivity]. cbn [andb]. rewrite proj_flat.
    transitivity (flat_map (rot_step P Q mb n src c r) (rc_rots c)).
    + apply flat_map_ext_in. intros g I. rewrite proj_egs by (auto; lia). rewrite Z.eqb_refl. reflexivity.
    + destruct (rc_range P Q src c Col r) eqn:E; [reflexivity|]. apply flat_map_nil. intros g I. apply rot_step_none; auto.
  - destruct (rc_range _ _ _ _ _ _); [|reflexivity]. rewrite proj_flat. apply flat_map_nil. intros g I. rewrite proj_egs by auto.
    destruct (Z.eqb_spec pr (co Q Row r)); [contradiction|reflexivity].
Qed.
Lemma flat_one : forall {A B} (f : A -> list B) (p : A -> bool) (l : list A) y, NoDup l -> In y l -> (forall x, p x = true <-> x = y) ->
  flat_map (fun x => if p x then f x else []) l = f y.
Proof.
  induction l as [|x l IH]; intros y ND I H; [destruct I|]. inversion ND as [|? ? NI ND']; subst. cbn [flat_map]. destruct I as [->|I].
  - rewrite (proj2 (H y) eq_refl). rewrite flat_map_nil; [apply app_nil_r|]. intros z Iz. destruct (p z) eqn:E; [|reflexivity]. apply H in E. subst. contradiction.
  - destruct (p x) eqn:E; [apply H in E; subst; contradiction|]. cbn [app]. apply IH; auto.
Qed.
Lemma choreo_proj : forall calls r, Forall call_ok calls -> In r rks -> rots_prog P Q mb n src calls r = proj mem r (choreo calls).
Proof using HP HQ HMB HS.
  intros calls r OK R. rewrite Forall_forall in OK. unfold choreo. rewrite proj_flat.
  transitivity (flat_map (fun pr => if pr =? co Q Row r then rots_prog P Q mb n src calls r else []) (zrange 0 P)).
  - symmetry. rewrite (flat_one (fun _ => rots_prog P Q mb n src calls r) _ _ (co Q Row r)); [reflexivity|apply zrange_NoDup| |].
    + apply in_zrange. apply (in_ranks P Q HP HQ) in R. lia.
    + intros x. apply Z.eqb_eq.
  - apply flat_map_ext_in. intros pr I. apply in_zrange in I. unfold erow. rewrite proj_flat. unfold rots_prog. destruct (pr =? co Q Row r) eqn:E.
    + apply flat_map_ext_in. intros c Ic. rewrite proj_ecall by auto. rewrite E. reflexivity.
    + symmetry. apply flat_map_nil. intros c Ic. rewrite proj_ecall by auto. rewrite E. reflexivity.
Qed.
Lemma tid_rank_col : forall c r j h, t_rank (col_tid mb c r j h) = r. Proof. intros c r j []; reflexivity. Qed.
Lemma loc_ok : forall c g q, In q rks -> Forall (event_ok mem rks) (ejobs c g q).
Proof using.
  intros c g q R. unfold ejobs. apply Forall_forall. intros e I. apply in_map_iff in I as (j & <- & I). constructor; try discriminate.
  - intros r a E. cbn in E. destruct (Z.eqb_spec q r) as [->|]; [exact R|discriminate].
  - intros r a t E T. cbn in E. destruct (Z.eqb_spec q r) as [->|]; [|discriminate]. injection E as <-. cbn [act_reads act_writes] in T.
    unfold rot_jobs in I. cbn [In] in I. destruct I as [<-|[<-|[<-|[]]]]; cbn [tj_in tj_out In] in T; destruct T as [[<-|[]]|[<-|[]]]; rewrite ?tid_rank_col; reflexivity.
Qed.
Lemma egs_ok : forall pr c g, 0 <= pr < P -> 0 <= rc_begin c -> rot_ok c g -> Forall (event_ok mem rks) (egs pr c g).
Proof using HP HQ HMB HS.
  intros pr c g LP LB OK. destruct (col_range c g LB OK) as [LX LY]. pose proof (mk_in P Q HP HQ Row pr (colx c g) LP LX) as IX. pose proof (mk_in P Q HP HQ Row pr (coly c g) LP LY) as IY. cbn [mk] in IX, IY.
  unfold egs. destruct (Z.eqb_spec (colx c g) (coly c g)) as [E|E]; [apply loc_ok; exact IX|]. constructor; [|apply Forall_app; split; apply loc_ok; assumption].
  set (a := rk Q pr (colx c g)) in *. set (b := rk Q pr (coly c g)) in *.
  destruct (co_rk pr (colx c g) LP LX) as [A1 A2]. destruct (co_rk pr (coly c g) LP LY) as [B1 B2]. fold a in A1, A2. fold b in B1, B2.
  assert (MB : forall r, In r (mem (chan c a b)) -> In r rks /\ (r = a \/ r = b)).
  { intros r I. assert (R : In r rks) by (apply (members_ranks P Q HP HQ _ _ I)). split; [exact R|]. destruct (member_spec mem (chan c a b) r) as [_|N]; [|contradiction].
    pose proof (memb_chan c a b r R) as M. assert (member mem (chan c a b) r = true) by (destruct (member_spec mem (chan c a b) r); [reflexivity|contradiction]). rewrite M in H. lia. }
  assert (PA : part c g a = exchange P Q mb n src c a b (X c g a) (Y c g a)) by (unfold part; rewrite A1, A2, Z.eqb_refl; reflexivity).
  assert (PB : part c g b = exchange P Q mb n src c b a (Y c g b) (X c g b)) by (unfold part; rewrite B1, B2; destruct (Z.eqb_spec (coly c g) (colx c g)); [congruence|reflexivity]).
  assert (CH : chan c b a = chan c a b) by (unfold chan; f_equal; lia).
  assert (IA : In a (mem (chan c a b))) by (destruct (member_spec mem (chan c a b) a) as [I|N]; [exact I|]; exfalso; apply N; unfold chan; cbn; apply filter_In; split; [exact IX|lia]).
  assert (IB : In b (mem (chan c a b))) by (unfold chan; cbn; apply filter_In; split; [exact IY|lia]).
  constructor.
  - intros r x Er. cbn [eact] in Er. destruct (member_spec mem (chan c a b) r) as [I|]; [|discriminate]. apply MB, I.
  - intros r x t Er T. cbn [eact] in Er. destruct (member_spec mem (chan c a b) r) as [I|]; [|discriminate]. injection Er as <-. destruct (MB r I) as [_ [-> | ->]]; rewrite ?PA, ?PB in T; cbn in T;
      destruct T as [[<-|[]]|[<-|[]]]; apply tid_rank_col.
  - intros c' p' Ee r I. injection Ee as <- <-. destruct (MB r I) as [_ [-> | ->]]; rewrite ?PA, ?PB; cbn [exchange ca_comm]; auto.
  - intros c' p' Ee r q I J. injection Ee as <- <-. destruct (MB r I) as [_ [-> | ->]], (MB q J) as [_ [-> | ->]]; rewrite ?PA, ?PB; reflexivity.
  - intros c' p' Ee r q I J. injection Ee as <- <-. destruct (MB r I) as [_ [-> | ->]]; rewrite ?PA, ?PB in J; cbn in J; destruct J as [<-|[]]; (split; [assumption|]); rewrite ?PA, ?PB; discriminate.
Qed.
Lemma choreo_ok : forall calls, Forall call_ok calls -> Forall (event_ok mem rks) (choreo calls).
Proof using HP HQ HMB HS.
  intros calls OK. rewrite Forall_forall in *. intros e I. unfold choreo, erow, ecall in I. apply in_flat_map in I as (pr & Ip & I). apply in_zrange in Ip. apply in_flat_map in I as (c & Ic & I).
  destruct (OK c Ic) as [LB OC]. rewrite Forall_forall in OC. destruct (rc_range _ _ _ _ _ _); [|destruct I]. apply in_flat_map in I as (g & Ig & I). pose proof (egs_ok pr c g Ip LB (OC g Ig)) as F. rewrite Forall_forall in F. apply F. exact I.
Qed.

(** ** Values *)
Definition rel (pr : Z) (st : tstore column) (M : Z -> Z -> R) : Prop :=
  forall i j, 0 <= i < n -> 0 <= j < n -> trk Row (i / mb) = pr -> st (Tid (rk Q pr (trk Col (j / mb))) 0 0 j) i = M i j.
(** effect of the three tasks of a rotation *)
Lemma jobs_val : forall c r x y g st, x <> y -> x <> scratch c r -> y <> scratch c r ->
  forall z, trun (jobs c r x y g) st z =
    if tid_eqb z y then (fun i => if my_row P Q mb n src c r i then (r_c g * st y i - r_s g * st x i)%R else st y i)
    else if tid_eqb z x then (fun i => if my_row P Q mb n src c r i then (r_c g * st x i + r_s g * st y i)%R else st x i)
    else if tid_eqb z (scratch c r) then st x else st z.
Proof.
  intros c r x y g st XY XS YS z. unfold rot_jobs, trun. cbn [fold_left]. unfold texec, tval. cbn [tj_out tj_in tj_fun map arg hd]. unfold tset, arg. cbn [hd].
  assert (F : forall a b : tid, a <> b -> tid_eqb a b = false) by (intros a b N; destruct (tid_eqb_spec a b); [contradiction|reflexivity]).
  assert (T : forall a : tid, tid_eqb a a = true) by (intros a; destruct (tid_eqb_spec a a); [reflexivity|contradiction]).
  repeat first [rewrite (F x y) by congruence | rewrite (F y x) by congruence | rewrite (F x (scratch c r)) by congruence | rewrite (F y (scratch c r)) by congruence | rewrite (F (scratch c r) x) by congruence | rewrite (F (scratch c r) y) by congruence | rewrite T].
  reflexivity.
Qed.
Lemma erun_ejobs : forall c g q st, erun mem (ejobs c g q) st = trun (jobs c q (X c g q) (Y c g q) g) st.
Proof. reflexivity. Qed.
Lemma my_row_pr : forall c r i, my_row P Q mb n src c r i = (off c <=? i) && (i <? lim c) && (trk Row (Z.quot i mb) =? co Q Row r). Proof. reflexivity. Qed.
Lemma col_has : forall c r j, col_tid mb c r j true = Tid r 0 0 (off c + j). Proof. reflexivity. Qed.
Lemma col_not : forall c r j, col_tid mb c r j false = Tid r 1 (rc_ws c) 0. Proof. reflexivity. Qed.
Lemma teq_f : forall a b : tid, a <> b -> tid_eqb a b = false. Proof. intros a b N; destruct (tid_eqb_spec a b); [contradiction|reflexivity]. Qed.
Lemma teq_t : forall a : tid, tid_eqb a a = true. Proof. intros a; destruct (tid_eqb_spec a a); [reflexivity|contradiction]. Qed.
Lemma egs_val : forall pr c g st z i, 0 <= pr < P -> 0 <= rc_begin c -> rot_ok c g -> t_mat z = 0 ->
  let xa := Tid (rk Q pr (colx c g)) 0 0 (off c + r_i g) in
  let yb := Tid (rk Q pr (coly c g)) 0 0 (off c + r_j g) in
  let here := (off c <=? i) && (i <? lim c) && (trk Row (Z.quot i mb) =? pr) in
  erun mem (egs pr c g) st z i =
    if tid_eqb z yb then (if here then (r_c g * st yb i - r_s g * st xa i)%R else st yb i)
    else if tid_eqb z xa then (if here then (r_c g * st xa i + r_s g * st yb i)%R else st xa i) else st z i.
Proof using HP HQ HMB HS.
  intros pr c g st z i LP LB OK ZM xa yb here. destruct (col_range c g LB OK) as [LX LY].
  set (a := rk Q pr (colx c g)) in *. set (b := rk Q pr (coly c g)) in *.
  destruct (co_rk pr (colx c g) LP LX) as [A1 A2]. destruct (co_rk pr (coly c g) LP LY) as [B1 B2]. fold a in A1, A2. fold b in B1, B2.
  assert (MA : my_row P Q mb n src c a i = here) by (rewrite my_row_pr, A1; reflexivity).
  assert (MB : my_row P Q mb n src c b i = here) by (rewrite my_row_pr, B1; reflexivity).
  assert (XY : xa <> yb) by (intros E; unfold xa, yb in E; injection E as _ E; destruct OK; lia).
  assert (ZS : forall r, tid_eqb z (scratch c r) = false) by (intros r; apply teq_f; intros ->; discriminate).
  assert (ZW : forall r, tid_eqb z (Tid r 1 (rc_ws c) 0) = false) by (intros r; apply teq_f; intros ->; discriminate).
  unfold egs. fold a b. destruct (Z.eqb_spec (colx c g) (coly c g)) as [E|E].
  - rewrite erun_ejobs. assert (AB : a = b) by (unfold a, b; congruence).
    assert (XA : X c g a = xa) by (rewrite A2, Z.eqb_refl; reflexivity).
    assert (YA : Y c g a = yb) by (rewrite A2, E, Z.eqb_refl; unfold yb; rewrite <- AB; reflexivity).
    rewrite XA, YA. rewrite jobs_val by (try exact XY; discriminate). rewrite ZS. destruct (tid_eqb z yb); [|destruct (tid_eqb z xa)]; rewrite ?MA; reflexivity.
  - assert (AB : a <> b) by (intros F; apply E; rewrite <- A2, <- B2, F; reflexivity).
    assert (XA : X c g a = xa) by (rewrite A2, Z.eqb_refl; reflexivity).
    assert (YA : Y c g a = Tid a 1 (rc_ws c) 0) by (rewrite A2; destruct (Z.eqb_spec (colx c g) (coly c g)); [contradiction|reflexivity]).
    assert (YB : Y c g b = yb) by (rewrite B2, Z.eqb_refl; reflexivity).
    assert (XB : X c g b = Tid b 1 (rc_ws c) 0) by (rewrite B2; destruct (Z.eqb_spec (coly c g) (colx c g)); [congruence|reflexivity]).
    assert (PA : part c g a = exchange P Q mb n src c a b (X c g a) (Y c g a)) by (unfold part; rewrite A1, A2, Z.eqb_refl; reflexivity).
    assert (PB : part c g b = exchange P Q mb n src c b a (Y c g b) (X c g b)) by (unfold part; rewrite B1, B2; destruct (Z.eqb_spec (coly c g) (colx c g)); [congruence|reflexivity]).
    pose proof (mk_in P Q HP HQ Row pr (colx c g) LP LX) as IX. pose proof (mk_in P Q HP HQ Row pr (coly c g) LP LY) as IY. cbn [mk] in IX, IY. fold a in IX. fold b in IY.
    unfold erun. cbn [fold_left]. rewrite fold_left_app. fold (erun mem (ejobs c g a)) (erun mem (ejobs c g b)).
    set (st1 := eexec mem st (EColl (chan c a b) (part c g))).
    change (erun mem (ejobs c g b) (erun mem (ejobs c g a) st1) z i = if tid_eqb z yb then (if here then (r_c g * st yb i - r_s g * st xa i)%R else st yb i)
      else if tid_eqb z xa then (if here then (r_c g * st xa i + r_s g * st yb i)%R else st xa i) else st z i).
    assert (MRK : forall r, In r (mem (chan c a b)) -> r = a \/ r = b).
    { intros r I. pose proof (memb_chan c a b r (members_ranks P Q HP HQ _ _ I)) as M. destruct (member_spec mem (chan c a b) r); [lia|contradiction]. }
    assert (S0 : forall w, t_mat w = 0 -> st1 w = st w).
    { intros w W. unfold st1. cbn [eexec]. destruct (member_spec mem (chan c a b) (t_rank w)) as [I|]; [|reflexivity]. cbn [andb].
      destruct (MRK _ I) as [F|F]; rewrite F, ?PA, ?PB; cbn [exchange ca_out]; rewrite ?YA, ?XB; rewrite teq_f; try reflexivity; intros ->; discriminate. }
    assert (SA : forall k, my_row P Q mb n src c a k = true -> st1 (Tid a 1 (rc_ws c) 0) k = st yb k).
    { intros k HK. unfold st1. cbn [eexec t_rank]. rewrite memb_chan by exact IX. rewrite Z.eqb_refl. cbn [orb andb]. rewrite PA. cbn [exchange ca_out ca_needs ca_fun map]. rewrite YA, teq_t. rewrite HK. cbn [arg hd].
      rewrite PB. cbn [exchange ca_in]. rewrite YB. reflexivity. }
    assert (SB : forall k, my_row P Q mb n src c b k = true -> st1 (Tid b 1 (rc_ws c) 0) k = st xa k).
    { intros k HK. unfold st1. cbn [eexec t_rank]. rewrite memb_chan by exact IY. rewrite Z.eqb_refl, orb_true_r. cbn [andb]. rewrite PB. cbn [exchange ca_out ca_needs ca_fun map]. rewrite XB, teq_t. rewrite HK. cbn [arg hd].
      rewrite PA. cbn [exchange ca_in]. rewrite XA. reflexivity. }
    clearbody st1. rewrite !erun_ejobs. rewrite XA, YA, XB, YB. rewrite jobs_val by discriminate. rewrite ZW, ZS.
    assert (D1 : xa <> Tid a 1 (rc_ws c) 0) by discriminate. assert (D2 : xa <> scratch c a) by discriminate. assert (D3 : Tid a 1 (rc_ws c) 0 <> scratch c a) by discriminate.
    rewrite !(jobs_val c a xa (Tid a 1 (rc_ws c) 0) g st1 D1 D2 D3). rewrite ZW, ZS.
    assert (N1 : tid_eqb yb (Tid a 1 (rc_ws c) 0) = false) by (apply teq_f; discriminate). assert (N2 : tid_eqb yb xa = false) by (apply teq_f; congruence).
    assert (N3 : tid_eqb yb (scratch c a) = false) by (apply teq_f; discriminate).
    assert (N4 : tid_eqb (Tid b 1 (rc_ws c) 0) (Tid a 1 (rc_ws c) 0) = false) by (apply teq_f; intros F; injection F as F; congruence).
    assert (N5 : tid_eqb (Tid b 1 (rc_ws c) 0) xa = false) by (apply teq_f; discriminate). assert (N6 : tid_eqb (Tid b 1 (rc_ws c) 0) (scratch c a) = false) by (apply teq_f; discriminate).
    rewrite N1, N2, N3, N4, N5, N6. clear N1 N2 N3 N4 N5 N6.
    destruct (tid_eqb z yb); [|destruct (tid_eqb z xa)].
    + rewrite MB, !S0 by reflexivity. destruct here eqn:HH; [|reflexivity]. rewrite SB by congruence. reflexivity.
    + rewrite MA, !S0 by reflexivity. destruct here eqn:HH; [|reflexivity]. rewrite SA by congruence. reflexivity.
    + rewrite S0 by exact ZM. reflexivity.
Qed.
(** nothing else than the columns of the process row changes *)
Lemma egs_frame : forall pr c g st z, 0 <= pr < P -> 0 <= rc_begin c -> rot_ok c g -> t_mat z = 0 -> co Q Row (t_rank z) <> pr -> forall i, erun mem (egs pr c g) st z i = st z i.
Proof using HP HQ HMB HS.
  intros pr c g st z LP LB OK ZM NE i. rewrite egs_val by assumption. destruct (col_range c g LB OK) as [LX LY]. cbv zeta.
  rewrite !teq_f; [reflexivity| |]; intros ->; cbn [t_rank] in NE; apply NE; apply co_rk; assumption.
Qed.
Notation m c := (rc_size mb n c).
Lemma egs_rel : forall pr c g st B M, 0 <= pr < P -> 0 <= rc_begin c -> rot_ok c g ->
  rel pr st (put_block (off c) (off c) (m c) (m c) B M) -> rel pr (erun mem (egs pr c g) st) (put_block (off c) (off c) (m c) (m c) (rotate B g) M).
Proof using HP HQ HMB HS.
  intros pr c g st B M LP LB OK RL i j Li Lj Hi. rewrite egs_val by (assumption || reflexivity). cbv zeta.
  assert (RX : off c + r_i g < n) by (destruct OK as [[? I] _ _]; unfold rc_size, rc_limit in I; lia).
  assert (RY : off c + r_j g < n) by (destruct OK as [_ [? I] _]; unfold rc_size, rc_limit in I; lia).
  assert (O0 : 0 <= off c) by (unfold rc_off; nia). destruct OK as [LI LJ NIJ].
  pose proof (RL i (off c + r_i g) Li ltac:(lia) Hi) as VX. pose proof (RL i (off c + r_j g) Li ltac:(lia) Hi) as VY. pose proof (RL i j Li Lj Hi) as VZ.
  change (trk Col ((off c + r_i g) / mb)) with (colx c g) in VX. change (trk Col ((off c + r_j g) / mb)) with (coly c g) in VY.
  rewrite Z.quot_div_nonneg by lia. rewrite Hi, Z.eqb_refl, andb_true_r. rewrite VX, VY, VZ. clear VX VY VZ RL.
  unfold put_block, rotate. replace (off c + r_i g - off c) with (r_i g) by lia. replace (off c + r_j g - off c) with (r_j g) by lia.
  assert (LM : off c + m c = lim c) by (unfold rc_size; lia). rewrite !LM in *.
  replace (off c <=? off c + r_i g) with true by lia. replace (off c + r_i g <? lim c) with true by lia.
  replace (off c <=? off c + r_j g) with true by lia. replace (off c + r_j g <? lim c) with true by lia. rewrite !andb_true_r.
  destruct (tid_eqb_spec (Tid (rk Q pr (trk Col (j / mb))) 0 0 j) (Tid (rk Q pr (coly c g)) 0 0 (off c + r_j g))) as [E|N1].
  { injection E as _ ->. replace (off c + r_j g - off c) with (r_j g) by lia. replace (r_j g =? r_i g) with false by lia. rewrite Z.eqb_refl.
    replace (off c <=? off c + r_j g) with true by lia. replace (off c + r_j g <? lim c) with true by lia. rewrite !andb_true_r. destruct ((off c <=? i) && (i <? lim c)); reflexivity. }
  destruct (tid_eqb_spec (Tid (rk Q pr (trk Col (j / mb))) 0 0 j) (Tid (rk Q pr (colx c g)) 0 0 (off c + r_i g))) as [E|N2].
  { injection E as _ ->. replace (off c + r_i g - off c) with (r_i g) by lia. rewrite Z.eqb_refl.
    replace (off c <=? off c + r_i g) with true by lia. replace (off c + r_i g <? lim c) with true by lia. rewrite !andb_true_r. destruct ((off c <=? i) && (i <? lim c)); reflexivity. }
  assert (J1 : j <> off c + r_i g) by (intros ->; apply N2; reflexivity). assert (J2 : j <> off c + r_j g) by (intros ->; apply N1; reflexivity).
  replace (j - off c =? r_i g) with false by lia. replace (j - off c =? r_j g) with false by lia. reflexivity.
Qed.
(** ** Calls *)
Definition call_spec (M : Z -> Z -> R) (c : rcall) : Z -> Z -> R := put_block (off c) (off c) (m c) (m c) (apply_rotations (rc_rots c) (view2 (off c) M)) M.
Lemma rel_ext : forall pr st M M', (forall i j, 0 <= i < n -> 0 <= j < n -> trk Row (i / mb) = pr -> M i j = M' i j) -> rel pr st M -> rel pr st M'.
Proof using. intros pr st M M' E RL i j Li Lj Hi. rewrite <- E by assumption. apply RL; assumption. Qed.
Lemma erun_app : forall (A B : list (event column)) st, erun mem (A ++ B) st = erun mem B (erun mem A st). Proof. intros. apply fold_left_app. Qed.
Lemma rots_rel : forall pr c M, 0 <= pr < P -> 0 <= rc_begin c -> forall rots, Forall (rot_ok c) rots -> forall st B,
  rel pr st (put_block (off c) (off c) (m c) (m c) B M) -> rel pr (erun mem (flat_map (egs pr c) rots) st) (put_block (off c) (off c) (m c) (m c) (apply_rotations rots B) M).
Proof using HP HQ HMB HS.
  intros pr c M LP LB. induction 1 as [|g rots OK F IH]; intros st B RL; [exact RL|]. cbn [flat_map]. rewrite erun_app. apply (IH _ (rotate B g)). apply egs_rel; assumption.
Qed.
Lemma call_rel : forall pr c st M, 0 <= pr < P -> call_ok c -> rel pr st M -> rel pr (erun mem (ecall pr c) st) (call_spec M c).
Proof using HP HQ HMB HS.
  intros pr c st M LP [LB OK] RL. unfold ecall. destruct (rc_range P Q src c Row (rk Q pr 0)) eqn:E.
  - apply rots_rel; try assumption. eapply rel_ext; [|exact RL]. intros i j _ _ _. unfold put_block. destruct (_ && _); [|reflexivity]. unfold view2. f_equal; lia.
  - eapply rel_ext; [|exact RL]. intros i j Li Lj Hi. unfold call_spec, put_block. destruct ((off c <=? i) && (i <? off c + m c)) eqn:I; [|reflexivity]. exfalso.
    rewrite (range_own Row c (rk Q pr 0) i) in E; [discriminate|apply (mk_in P Q HP HQ Row pr 0 LP); cbn; lia|exact LB|unfold rc_size in I; lia|].
    destruct (co_rk pr 0 LP ltac:(lia)) as [-> _]. exact Hi.
Qed.
Lemma row_rel : forall pr calls, 0 <= pr < P -> Forall call_ok calls -> forall st M, rel pr st M -> rel pr (erun mem (erow calls pr) st) (fold_left call_spec calls M).
Proof using HP HQ HMB HS.
  intros pr calls LP. induction 1 as [|c calls OK F IH]; intros st M RL; [exact RL|]. unfold erow. cbn [flat_map fold_left]. rewrite erun_app. apply IH. apply call_rel; assumption.
Qed.
Lemma row_frame : forall pr calls, 0 <= pr < P -> Forall call_ok calls -> forall st z, t_mat z = 0 -> co Q Row (t_rank z) <> pr -> forall i, erun mem (erow calls pr) st z i = st z i.
Proof using HP HQ HMB HS.
  intros pr calls LP. induction 1 as [|c calls OK F IH]; intros st z ZM NE i; [reflexivity|]. unfold erow. cbn [flat_map]. rewrite erun_app. fold (erow calls pr). rewrite IH by assumption.
  destruct OK as [LB OK]. unfold ecall. destruct (rc_range _ _ _ _ _ _); [|reflexivity]. clear F IH. revert st. induction OK as [|g rots OK F IH]; intros st; [reflexivity|]. cbn [flat_map]. rewrite erun_app, IH. apply egs_frame; assumption.
Qed.
Lemma rows_rel : forall calls M, Forall call_ok calls -> forall l, NoDup l -> (forall pr, In pr l -> 0 <= pr < P) -> forall st, (forall pr, In pr l -> rel pr st M) ->
  (forall pr, In pr l -> rel pr (erun mem (flat_map (erow calls) l) st) (fold_left call_spec calls M)) /\
  (forall z, t_mat z = 0 -> ~ In (co Q Row (t_rank z)) l -> forall i, erun mem (flat_map (erow calls) l) st z i = st z i).
Proof using HP HQ HMB HS.
  intros calls M OK. induction 1 as [|p l NI ND IH]; intros LP st RL; [split; [intros pr []|reflexivity]|]. cbn [flat_map]. rewrite erun_app.
  assert (RL' : forall pr, In pr l -> rel pr (erun mem (erow calls p) st) M).
  { intros pr I i j Li Lj Hi. rewrite row_frame; [|apply LP; left; reflexivity|exact OK|reflexivity|].
    - apply RL; auto. right. exact I.
    - cbn [t_rank]. assert (0 <= j / mb) by (apply Z.div_pos; lia). destruct (co_rk pr (trk Col (j / mb)) ltac:(apply LP; right; exact I) (trk_range Col _ H)) as [-> _]. intros ->. contradiction. }
  destruct (IH ltac:(intros; apply LP; right; assumption) _ RL') as [H1 H2]. split.
  - intros pr [<-|I]; [|apply H1; exact I]. intros i j Li Lj Hi. assert (0 <= j / mb) by (apply Z.div_pos; lia). rewrite H2.
    + apply row_rel; auto; [apply LP; left; reflexivity|apply RL; left; reflexivity].
    + reflexivity.
    + cbn [t_rank]. destruct (co_rk p (trk Col (j / mb)) ltac:(apply LP; left; reflexivity) (trk_range Col _ H)) as [-> _]. exact NI.
  - intros z ZM NE i. rewrite H2 by (try exact ZM; intros I; apply NE; right; exact I). apply row_frame; auto; [apply LP; left; reflexivity|]. intros <-. apply NE. left. reflexivity.
Qed.
Theorem rots_run : forall calls M st, Forall call_ok calls ->
  (forall i j, 0 <= i < n -> 0 <= j < n -> st (Tid (rk Q (trk Row (i / mb)) (trk Col (j / mb))) 0 0 j) i = M i j) ->
  every_run mem rks (rots_prog P Q mb n src calls) st
    (fun st' => forall i j, 0 <= i < n -> 0 <= j < n -> st' (Tid (rk Q (trk Row (i / mb)) (trk Col (j / mb))) 0 0 j) i = fold_left call_spec calls M i j).
Proof using HP HQ HMB HS.
  intros calls M st OK H0. apply every_run_intro with (choreo calls).
  - intros r R. apply choreo_proj; assumption.
  - apply choreo_ok. exact OK.
  - intros st' E i j Li Lj. rewrite E. unfold choreo.
    destruct (rows_rel calls M OK (zrange 0 P) (zrange_NoDup _ _) ltac:(intros pr I; apply in_zrange in I; exact I) st) as [H1 _].
    { intros pr I i' j' Li' Lj' Hi'. rewrite <- Hi'. apply H0; assumption. }
    assert (0 <= i / mb) by (apply Z.div_pos; lia).
    apply H1; auto. apply in_zrange. apply (trk_range Row). assumption.
Qed.
End proof.
