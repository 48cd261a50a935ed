(** * Distributed band_to_tridiagonal: the actions of the tasks and the sequential order. *)
From Coq Require Import ZArith Lia List Bool Sorting.Sorted.
From Verif Require Import Loop HouseModel DistGrid DistMat B2TMsgModel B2TMsgSpec B2TMsgProofs B2TSched SemModel SemProofs Reorder BtB2TFinal B2TDistModel B2TDistStruct.
Import ListNotations.
Local Open Scope Z_scope.

Section seq.
Variable g : msg_cfg.
Hypothesis G : cfg_ok g.
Variable rdv : dthread -> bool.
Notation size := (m_size g).
Notation nb := (m_nb g).
Notation b := (m_b g).
Notation nbb := (nb_band g).
Notation spb := (steps_per_block g).
Notation tpb := (tiles_per_block g).
Notation steps := (steps g).
Notation sweeps := (sweeps g).
Notation next_j := (next_j g).
Notation cv := (cv g).
Notation tok := (tok g).
Notation ths := (dthreads g).

Definition owner (a : dact) : dthread :=
  match a with
  | Copy j => TCopy j | SendC s k => TSendC s k | RecvC s k => TRecvC s k | Init s => TInit s | TriS s => TInit s
  | SaveV s t => TStep s t | Step s t => TStep s t | SendW s k => TSendW s k | RecvW s k => TRecvW s k | TriF i => TTri i
  end.
Definition pos (a : dact) : Z := match a with Copy _ => 0 | TriS _ => 3 | Step _ _ => 4 | _ => 2 end.
Definition act_ok (a : dact) : Prop := tok (owner a) /\ match a with TriS s => (s + 1) mod nb = 0 | _ => True end.
Lemma act_pos : forall t i a, In t ths -> nth_error (dprog g rdv t) i = Some (IAct a) -> t = owner a /\ Z.of_nat i = pos a /\ act_ok a.
Proof using G.
  intros t i a It E. apply (in_threads g G) in It as [_ OK]. destruct t as [j|j|s k|s k|s k|s k|s|s k|s k|s u|s k| |i'|]; cbn [dprog] in E.
  - destruct i as [|i]; [inversion E; subst; split; [reflexivity|split; [reflexivity|split; [exact OK|exact Logic.I]]]|destruct i; discriminate].
  - destruct i as [|[|[|i]]]; try discriminate. destruct i; discriminate.
  - destruct i as [|i]; [discriminate|destruct i; discriminate].
  - destruct i as [|[|[|i]]]; try discriminate; [inversion E; subst; split; [reflexivity|split; [reflexivity|split; [exact OK|exact Logic.I]]]|destruct i; discriminate].
  - destruct i as [|i]; [discriminate|destruct i; discriminate].
  - destruct i as [|[|[|[|i]]]]; try discriminate; [inversion E; subst; split; [reflexivity|split; [reflexivity|split; [exact OK|exact Logic.I]]]|destruct i; discriminate].
  - destruct i as [|[|[|i]]]; try discriminate; [inversion E; subst; split; [reflexivity|split; [reflexivity|split; [exact OK|exact Logic.I]]]|]. cbn [app nth_error] in E. destruct (Z.eqb_spec ((s + 1) mod nb) 0) as [M|M]; [|destruct i; discriminate]. destruct i as [|i]; [inversion E; subst; split; [reflexivity|split; [reflexivity|split; assumption]]|destruct i; discriminate].
  - destruct i as [|i]; [discriminate|destruct i; discriminate].
  - destruct i as [|[|[|i]]]; try discriminate; [inversion E; subst; split; [reflexivity|split; [reflexivity|split; [exact OK|exact Logic.I]]]|destruct i; discriminate].
  - destruct i as [|[|[|[|[|[|i]]]]]]; try discriminate; [inversion E; subst; split; [reflexivity|split; [reflexivity|split; [exact OK|exact Logic.I]]]|inversion E; subst; split; [reflexivity|split; [reflexivity|split; [exact OK|exact Logic.I]]]|]. cbn [app nth_error] in E. destruct (extra g s u); [|destruct i; discriminate]. destruct i as [|i]; [discriminate|destruct i; discriminate].
  - destruct i as [|[|[|i]]]; try discriminate; [inversion E; subst; split; [reflexivity|split; [reflexivity|split; [exact OK|exact Logic.I]]]|destruct i; discriminate].
  - destruct i as [|i]; [discriminate|destruct i; discriminate].
  - destruct i as [|[|[|i]]]; try discriminate; [inversion E; subst; split; [reflexivity|split; [reflexivity|split; [exact OK|exact Logic.I]]]|destruct i; discriminate].
  - destruct i; discriminate.
Qed.
Lemma act_at : forall a, 0 < size -> act_ok a -> In (owner a) ths /\ nth_error (dprog g rdv (owner a)) (Z.to_nat (pos a)) = Some (IAct a).
Proof using G.
  intros a SZ [OK X]. split; [apply (in_threads g G); auto|]. destruct a; cbn [owner pos dprog]; try reflexivity. apply Z.eqb_eq in X. rewrite X. reflexivity.
Qed.
Lemma pos0 : forall a, 0 <= pos a.
Proof using. clear. intros []; cbn; lia. Qed.
Lemma occ : forall t i u j a, In t ths -> In u ths -> nth_error (dprog g rdv t) i = Some (IAct a) -> nth_error (dprog g rdv u) j = Some (IAct a) -> t = u /\ i = j.
Proof using G. intros t i u j a It Iu Ei Ej. destruct (act_pos t i a It Ei) as (-> & A & _), (act_pos u j a Iu Ej) as (-> & B & _). split; [reflexivity|lia]. Qed.

(** ** The order *)
Definition key (a : dact) : Z * Z * Z * Z :=
  match a with
  | Copy j => (0, j, 0, 0)
  | SendC s k => (1, s, 0, 2 * k) | RecvC s k => (1, s, 0, 2 * k + 3)
  | Init s => (1, s, 1, 0) | TriS s => (1, s, 1, 1)
  | SaveV s t => (1, s, 2, 4 * t) | Step s t => (1, s, 2, 4 * t + 1)
  | SendW s k => (1, s, 2, 4 * ((k + 1) * spb) - 2) | RecvW s k => (1, s, 2, 4 * (k * spb) - 1)
  | TriF i => (2, i, 0, 0)
  end.
Definition klt (a c : dact) : Prop :=
  let '(x, y, z, w) := key a in let '(x', y', z', w') := key c in x < x' \/ x = x' /\ (y < y' \/ y = y' /\ (z < z' \/ z = z' /\ w < w')).
Lemma klt_irr : forall x, ~ klt x x.
Proof using. clear. intros x H. unfold klt in H. destruct (key x) as [[[? ?] ?] ?]. lia. Qed.
Lemma in_seq : forall a, In a (dseq g) <-> 0 < size /\ act_ok a.
Proof using G.
  intros a. pose proof (spb1 g G) as S1. pose proof (g_size g G) as G0. unfold dseq. destruct (Z.eqb_spec size 0) as [E|N]; [split; [intros []|lia]|]. rewrite !in_app_iff, in_map_iff, in_flat_map. split.
  - intros H. split; [lia|]. destruct H as [(j & <- & I)|[(s & Is & H)|[H|[<-|[]]]]].
    + apply in_zrange in I. split; [exact I|exact Logic.I].
    + apply in_zrange in Is. unfold sweep_seq in H. apply in_app_or in H as [H|[<-|H]].
      * apply in_flat_map in H as (k & Ik & H). apply (block_range g G) in Ik. destruct (Z.ltb_spec (next_j s k) size) as [C|]; [|destruct H]. assert (C' : cv s k) by (unfold B2TDistStruct.cv; lia).
        destruct H as [<-|[<-|[]]]; (split; [|exact Logic.I]); cbn [owner B2TDistStruct.tok]; [replace (k + 1 - 1) with k by lia|]; exact C'.
      * split; [exact Is|exact Logic.I].
      * apply in_app_or in H as [H|H]; [destruct (Z.eqb_spec ((s + 1) mod nb) 0); [|destruct H]; destruct H as [<-|[]]; split; assumption|].
        apply in_flat_map in H as (t & It & H). apply in_zrange in It. apply in_app_or in H as [H|[<-|[<-|[]]]]; [|split; [split; assumption|exact Logic.I]|split; [split; assumption|exact Logic.I]].
        destruct ((0 <? t) && (t mod spb =? 0)) eqn:C; [|destruct H]. apply andb_prop in C as [C1 C2]. apply Z.eqb_eq in C2. pose proof (kb0 g G t ltac:(lia) C2) as ET. set (k := t / spb) in *. assert (1 <= k) by nia.
        destruct H as [<-|[<-|[]]]; (split; [|exact Logic.I]); cbn [owner B2TDistStruct.tok]; [replace (k - 1 + 1) with k by lia|]; (split; [exact Is|lia]).
    + destruct (m_cplx g) eqn:C; [destruct H|]. destruct H as [<-|[]]. split; [right; auto|exact Logic.I].
    + split; [left; reflexivity|exact Logic.I].
  - intros (_ & OK & X). destruct a as [j|s k|s k|s|s|s t|s t|s k|s k|i]; cbn [owner B2TDistStruct.tok] in OK.
    + left. exists j. split; [reflexivity|apply in_zrange; exact OK].
    + right. left. exists s. split; [apply in_zrange; apply (cv_sweep g G _ _ OK)|]. apply in_or_app. left. apply in_flat_map. exists (k - 1). split; [apply (block_range g G); split; [apply OK|apply (cv_active g G _ _ OK)]|]. destruct OK as (_ & _ & C). apply Z.ltb_lt in C. rewrite C. left. f_equal. lia.
    + right. left. exists s. split; [apply in_zrange; apply (cv_sweep g G _ _ OK)|]. apply in_or_app. left. apply in_flat_map. exists k. split; [apply (block_range g G); split; [apply OK|apply (cv_active g G _ _ OK)]|]. destruct OK as (_ & _ & C). apply Z.ltb_lt in C. rewrite C. right. left. reflexivity.
    + right. left. exists s. split; [apply in_zrange; exact OK|]. apply in_or_app. right. left. reflexivity.
    + right. left. exists s. split; [apply in_zrange; exact OK|]. apply in_or_app. right. right. apply in_or_app. left. apply Z.eqb_eq in X. rewrite X. left. reflexivity.
    + right. left. exists s. split; [apply in_zrange; apply OK|]. apply in_or_app. right. right. apply in_or_app. right. apply in_flat_map. exists t. split; [apply in_zrange; apply OK|]. apply in_or_app. right. left. reflexivity.
    + right. left. exists s. split; [apply in_zrange; apply OK|]. apply in_or_app. right. right. apply in_or_app. right. apply in_flat_map. exists t. split; [apply in_zrange; apply OK|]. apply in_or_app. right. right. left. reflexivity.
    + destruct OK as (Ls & Lk & A). right. left. exists s. split; [apply in_zrange; exact Ls|]. apply in_or_app. right. right. apply in_or_app. right. apply in_flat_map. exists ((k + 1) * spb). split; [apply in_zrange; nia|]. apply in_or_app. left.
      rewrite Z.mod_mul, Z.div_mul by lia. replace (0 <? (k + 1) * spb) with true by (symmetry; apply Z.ltb_lt; nia). left. f_equal. lia.
    + destruct OK as (Ls & Lk & A). right. left. exists s. split; [apply in_zrange; exact Ls|]. apply in_or_app. right. right. apply in_or_app. right. apply in_flat_map. exists (k * spb). split; [apply in_zrange; nia|]. apply in_or_app. left.
      rewrite Z.mod_mul, Z.div_mul by lia. replace (0 <? k * spb) with true by (symmetry; apply Z.ltb_lt; nia). right. left. reflexivity.
    + right. right. destruct OK as [->|[-> C]]; [right; left; reflexivity|]. left. rewrite C. left. reflexivity.
Qed.
Lemma sort2 : forall x y, klt x y -> StronglySorted klt [x; y].
Proof using. clear. intros x y H. constructor; [apply sorted_one|]. constructor; [exact H|constructor]. Qed.
Lemma sweep_key : forall s x, In x (sweep_seq g s) -> fst (fst (fst (key x))) = 1 /\ snd (fst (fst (key x))) = s.
Proof using.
  clear. intros s x H. unfold sweep_seq in H. apply in_app_or in H as [H|[<-|H]]; [|auto|].
  - apply in_flat_map in H as (k & _ & H). destruct (next_j s k <? size); [|destruct H]. destruct H as [<-|[<-|[]]]; auto.
  - apply in_app_or in H as [H|H]; [destruct (_ =? _); [|destruct H]; destruct H as [<-|[]]; auto|]. apply in_flat_map in H as (t & _ & H). apply in_app_or in H as [H|[<-|[<-|[]]]]; auto. destruct (_ && _); [|destruct H]. destruct H as [<-|[<-|[]]]; auto.
Qed.
Ltac ord := unfold klt; cbn [key]; lia.
Lemma sweep_sorted : forall s, StronglySorted klt (sweep_seq g s).
Proof using G.
  intros s. pose proof (spb1 g G) as S1. set (first := fun x : dact => match x with SendC _ _ | RecvC _ _ => True | _ => False end).
  assert (ST : forall t x, 0 <= t -> In x ((if (0 <? t) && (t mod spb =? 0) then [SendW s (t / spb - 1); RecvW s (t / spb)] else []) ++ [SaveV s t; Step s t]) ->
    exists d, key x = (1, s, 2, 4 * t + d) /\ -2 <= d <= 1).
  { intros t x Lt H. apply in_app_or in H as [H|[<-|[<-|[]]]]; [|exists 0; split; [cbn [key]; f_equal; lia|lia]|exists 1; split; [reflexivity|lia]].
    destruct ((0 <? t) && (t mod spb =? 0)) eqn:C; [|destruct H]. apply andb_prop in C as [C1 C2]. apply Z.eqb_eq in C2. pose proof (kb0 g G t Lt C2) as ET.
    destruct H as [<-|[<-|[]]]; [exists (-2)|exists (-1)]; (split; [cbn [key]; f_equal; replace (t / spb - 1 + 1) with (t / spb) by lia; rewrite <- ET; lia|lia]). }
  unfold sweep_seq. apply sorted_app; [|constructor|].
  - apply sorted_flat; [apply zrange_sorted| |].
    + intros k _. destruct (next_j s k <? size); [apply sort2; ord|constructor].
    + intros i j a c _ _ L Ia Ic. destruct (next_j s i <? size); [|destruct Ia]. destruct (next_j s j <? size); [|destruct Ic]. destruct Ia as [<-|[<-|[]]], Ic as [<-|[<-|[]]]; ord.
  - apply sorted_app; [destruct (_ =? _); [apply sorted_one|constructor]| |].
    + apply sorted_flat; [apply zrange_sorted| |].
      * intros t It. apply in_zrange in It. apply sorted_app; [destruct ((0 <? t) && (t mod spb =? 0)) eqn:C; [|constructor]| |].
        -- apply sort2. unfold klt. cbn [key]. replace (t / spb - 1 + 1) with (t / spb) by lia. lia.
        -- apply sort2. ord.
        -- intros x y Ix Iy. destruct ((0 <? t) && (t mod spb =? 0)) eqn:C; [|destruct Ix]. apply andb_prop in C as [C1 C2]. apply Z.eqb_eq in C2. pose proof (kb0 g G t ltac:(lia) C2) as ET.
           unfold klt. destruct Ix as [<-|[<-|[]]], Iy as [<-|[<-|[]]]; cbn [key]; replace (t / spb - 1 + 1) with (t / spb) by lia; lia.
      * intros i j a c Ii Ij L Ia Ic. apply in_zrange in Ii, Ij. destruct (ST i a ltac:(lia) Ia) as (d & Ka & Ld). destruct (ST j c ltac:(lia) Ic) as (e & Kc & Le). unfold klt. rewrite Ka, Kc. lia.
    + intros x y Ix Iy. destruct (_ =? _); [|destruct Ix]. destruct Ix as [<-|[]]. apply in_flat_map in Iy as (t & It & Iy). apply in_zrange in It. destruct (ST t y ltac:(lia) Iy) as (d & K & L). unfold klt. rewrite K. cbn [key]. lia.
  - apply Forall_forall. intros y Iy. apply in_app_or in Iy as [Iy|Iy]; [destruct (_ =? _); [|destruct Iy]; destruct Iy as [<-|[]]; ord|]. apply in_flat_map in Iy as (t & It & Iy). apply in_zrange in It. destruct (ST t y ltac:(lia) Iy) as (d & K & L). unfold klt. rewrite K. cbn [key]. lia.
  - intros x y Ix Iy. apply in_flat_map in Ix as (k & _ & Ix). assert (K : exists n, key x = (1, s, 0, n)) by (destruct (next_j s k <? size); [|destruct Ix]; destruct Ix as [<-|[<-|[]]]; eexists; reflexivity). destruct K as (n & K).
    destruct Iy as [<-|Iy]; [unfold klt; rewrite K; cbn [key]; lia|]. apply in_app_or in Iy as [Iy|Iy]; [destruct (_ =? _); [|destruct Iy]; destruct Iy as [<-|[]]; unfold klt; rewrite K; cbn [key]; lia|].
    apply in_flat_map in Iy as (t & It & Iy). apply in_zrange in It. destruct (ST t y ltac:(lia) Iy) as (d & K' & L). unfold klt. rewrite K, K'. lia.
Qed.
Lemma seq_sorted : StronglySorted klt (dseq g).
Proof using G.
  unfold dseq. destruct (size =? 0); [constructor|]. 
  assert (TF : forall y, In y ((if m_cplx g then [] else [TriF (size - 1)]) ++ [TriF size]) -> fst (fst (fst (key y))) = 2).
  { intros y Iy. apply in_app_or in Iy as [Iy|[<-|[]]]; [|reflexivity]. destruct (m_cplx g); [destruct Iy|]. destruct Iy as [<-|[]]; reflexivity. }
  apply sorted_app; [|apply sorted_app; [|apply sorted_app|]|].
  - apply (sorted_map klt Z.lt); [apply zrange_sorted|]. intros i j _ _ L. ord.
  - apply sorted_flat; [apply zrange_sorted|intros s _; apply sweep_sorted|]. intros i j a c _ _ L Ia Ic. apply sweep_key in Ia, Ic. unfold klt. destruct (key a) as [[[? ?] ?] ?], (key c) as [[[? ?] ?] ?]. cbn [fst snd] in *. lia.
  - destruct (m_cplx g); [constructor|apply sorted_one].
  - apply sorted_one.
  - intros x y Ix [<-|[]]. destruct (m_cplx g); [destruct Ix|]. destruct Ix as [<-|[]]. ord.
  - intros x y Ix Iy. apply TF in Iy. apply in_flat_map in Ix as (s & _ & Ix). apply sweep_key in Ix. unfold klt. destruct (key x) as [[[? ?] ?] ?], (key y) as [[[? ?] ?] ?]. cbn [fst snd] in *. lia.
  - intros x y Ix Iy. apply in_map_iff in Ix as (j & <- & _). apply in_app_or in Iy as [Iy|Iy]; [apply in_flat_map in Iy as (s & _ & Iy); apply sweep_key in Iy|apply TF in Iy]; unfold klt; cbn [key]; destruct (key y) as [[[? ?] ?] ?]; cbn [fst snd] in *; lia.
Qed.
End seq.
