(** * Tasks that synchronise through counting semaphores (pika::counting_semaphore) and task dependencies.
    A thread is a list of instructions; an action reads a set of memory locations and writes another. An action is not atomic:
    it reads its inputs when it begins and writes its outputs when it ends, and other threads run in between. *)
From Coq Require Import ZArith Lia List Bool.
Import ListNotations.
Local Open Scope Z_scope.

Section sched.
Context {T Act L V : Type}.
Variable teq : forall x y : T, {x = y} + {x <> y}.
(** acquire(), release(n), an action (the body of a task between synchronisations), waiting for the end of another task (when_all) *)
Inductive instr := IAcq (s : Z) | IRel (s n : Z) | IAct (a : Act) | IJoin (t : T).
Record sys := Sys {
  threads : list T;
  prog : T -> list instr;
  rd : Act -> L -> bool; wr : Act -> L -> bool;
  eff : Act -> (L -> V) -> L -> V }.
(** pc: instructions executed; busy: the memory seen by the action that is being executed; semaphores; memory *)
Record sstate := SState { pc : T -> nat; busy : T -> option (L -> V); sem : Z -> Z; memo : L -> V }.
Definition tupd {X} (f : T -> X) (t : T) (x : X) : T -> X := fun u => if teq u t then x else f u.
Definition zupd (f : Z -> Z) (s x : Z) : Z -> Z := fun u => if u =? s then x else f u.
Variable P : sys.
Definition cur (st : sstate) (t : T) : option instr := nth_error (prog P t) (pc st t).
Definition adv (st : sstate) (t : T) : T -> nat := tupd (pc st) t (S (pc st t)).
Definition finished (st : sstate) (t : T) : Prop := pc st t = length (prog P t).
Inductive sstep (st : sstate) : sstate -> Prop :=
| SAcq t s : In t (threads P) -> cur st t = Some (IAcq s) -> 0 < sem st s ->
    sstep st (SState (adv st t) (busy st) (zupd (sem st) s (sem st s - 1)) (memo st))
| SRel t s n : In t (threads P) -> cur st t = Some (IRel s n) ->
    sstep st (SState (adv st t) (busy st) (zupd (sem st) s (sem st s + n)) (memo st))
| SJoin t u : In t (threads P) -> cur st t = Some (IJoin u) -> finished st u ->
    sstep st (SState (adv st t) (busy st) (sem st) (memo st))
| SBegin t a : In t (threads P) -> cur st t = Some (IAct a) -> busy st t = None ->
    sstep st (SState (pc st) (tupd (busy st) t (Some (memo st))) (sem st) (memo st))
| SEnd t a seen : In t (threads P) -> cur st t = Some (IAct a) -> busy st t = Some seen ->
    sstep st (SState (adv st t) (tupd (busy st) t None) (sem st) (fun l => if wr P a l then eff P a seen l else memo st l)).
Definition sinit (m0 : L -> V) : sstate := SState (fun _ => O) (fun _ => None) (fun _ => 0) m0.
Inductive sreach (m0 : L -> V) : sstate -> Prop :=
| SR0 : sreach m0 (sinit m0)
| SRS : forall st st', sreach m0 st -> sstep st st' -> sreach m0 st'.
Definition sfinal (st : sstate) : Prop := forall t, In t (threads P) -> finished st t.
(** action a is being executed by thread t *)
Definition executing (st : sstate) (t : T) (a : Act) : Prop := In t (threads P) /\ cur st t = Some (IAct a) /\ busy st t <> None.
(** two actions that are being executed touch the same location, at least one of them writes it *)
Definition sconflict (a b : Act) : Prop :=
  exists l, (wr P a l = true /\ (rd P b l = true \/ wr P b l = true)) \/ (wr P b l = true /\ rd P a l = true).
Definition race (st : sstate) : Prop := exists t u a b, t <> u /\ executing st t a /\ executing st u b /\ sconflict a b.
(** the effect of an action that runs alone *)
Definition sexec (a : Act) (m : L -> V) : L -> V := fun l => if wr P a l then eff P a m l else m l.
Definition srun (l : list Act) (m : L -> V) : L -> V := fold_left (fun m a => sexec a m) l m.
(** In every execution there is no race, some thread can go on until all have finished, no execution is infinite, and Q holds at the end. *)
Definition every_execution (m0 : L -> V) (Q : (L -> V) -> Prop) : Prop :=
  (forall st, sreach m0 st -> ~ race st /\ (sfinal st \/ exists st', sstep st st') /\ Acc (fun y x => sstep x y) st) /\
  (forall st, sreach m0 st -> sfinal st -> Q (memo st)).
End sched.
Arguments instr : clear implicits. Arguments sys : clear implicits. Arguments sstate : clear implicits.
Arguments IAcq {_ _}. Arguments IRel {_ _}. Arguments IAct {_ _}. Arguments IJoin {_ _}.
