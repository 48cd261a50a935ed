(** * Model of the life of memory views: shared ownership of chunks.

    Files: include/dlaf/memory/memory_view.h, include/dlaf/memory/memory_chunk.h.
    A history is a list of operations on view objects; view objects are numbered in the order of
    their construction.  [std::shared_ptr<MemoryChunk>] is modelled by its use count: the chunk's
    destructor runs when the count drops to 0.  The const/non-const variants of an operation are
    one operation here. *)
From Coq Require Import ZArith Bool List.
From Verif Require Import CInt MemModel.
Import ListNotations.
Open Scope Z_scope.

(** a chunk, its shared_ptr use count, and how often its memory was handed back to the allocator *)
Record rchunk := RChunk { rc_chunk : chunk; rc_uses : Z; rc_frees : Z }.
(** view objects; None: destroyed *)
Record vstate := VState { vs_views : list (option mview); vs_chunks : list rchunk }.
Definition vs_heap (s : vstate) : heap := map rc_chunk (vs_chunks s).

Inductive vop :=
| VDefault                         (* MemoryView() *)
| VAlloc (size : Z)                (* MemoryView(size) *)
| VUser (ptr : bool) (size : Z)    (* MemoryView(ptr, size) *)
| VCopy (i : nat)                  (* MemoryView(v_i) *)
| VMove (i : nat)                  (* MemoryView(std::move(v_i)) *)
| VSub (i : nat) (off size : Z)    (* MemoryView(v_i, off, size) *)
| VAssign (i j : nat)              (* v_i = v_j *)
| VMoveAssign (i j : nat)          (* v_i = std::move(v_j) *)
| VDestroy (i : nat).              (* ~MemoryView *)

Fixpoint upd {A} (l : list A) (n : nat) (x : A) : list A :=
  match l, n with
  | [], _ => []
  | _ :: t, O => x :: t
  | a :: t, S m => a :: upd t m x
  end.

(** copy of a shared_ptr *)
Definition retain (c : option nat) (cs : list rchunk) : res (list rchunk) :=
  match c with
  | None => Ok cs
  | Some n => match nth_error cs n with
              | None => UB
              | Some k => Ok (upd cs n (RChunk (rc_chunk k) (rc_uses k + 1) (rc_frees k)))
              end
  end.
(** MemoryChunk::~MemoryChunk / deallocate, memory_chunk.h:144-146, :174-189 *)
Definition destroy_chunk (k : rchunk) : rchunk :=
  RChunk (rc_chunk k) (rc_uses k) (if ck_allocated (rc_chunk k) then rc_frees k + 1 else rc_frees k).
(** destruction of a shared_ptr; a count that is not positive means the object is already gone *)
Definition release (c : option nat) (cs : list rchunk) : res (list rchunk) :=
  match c with
  | None => Ok cs
  | Some n => match nth_error cs n with
              | None => UB
              | Some k => if rc_uses k <=? 0 then UB
                          else let k' := RChunk (rc_chunk k) (rc_uses k - 1) (rc_frees k) in
                               Ok (upd cs n (if rc_uses k' =? 0 then destroy_chunk k' else k'))
              end
  end.

Definition view (s : vstate) (i : nat) : res mview :=
  match nth_error (vs_views s) i with Some (Some v) => Ok v | _ => UB end.
Definition push (s : vstate) (v : mview) : vstate := VState (vs_views s ++ [Some v]) (vs_chunks s).
(** a freshly made chunk is owned by one view *)
Definition adopt (cs : list rchunk) (h' : heap) : list rchunk :=
  cs ++ map (fun k => RChunk k 1 0) (skipn (length cs) h').

Definition vstep (s : vstate) (o : vop) : res vstate :=
  match o with
  | VDefault => Ok (push s mview_empty)                                   (* memory_view.h:39 *)
  | VAlloc size =>                                                         (* :46-51 *)
      vh <- mview_alloc (vs_heap s) size ;;
      Ok (VState (vs_views s ++ [Some (fst vh)]) (adopt (vs_chunks s) (snd vh)))
  | VUser ptr size =>                                                      (* :58-63 *)
      vh <- mview_user (vs_heap s) ptr size ;;
      Ok (VState (vs_views s ++ [Some (fst vh)]) (adopt (vs_chunks s) (snd vh)))
  | VCopy i =>                                                             (* :65-68 *)
      v <- view s i ;;
      cs <- retain (mv_chunk v) (vs_chunks s) ;;
      Ok (VState (vs_views s ++ [Some v]) cs)
  | VMove i =>                                                             (* :70-81 *)
      v <- view s i ;;
      Ok (VState (upd (vs_views s) i (Some (MView None 0 0)) ++ [Some v]) (vs_chunks s))
  | VSub i off size =>                                                     (* :89-100 *)
      v <- view s i ;;
      w <- mview_sub v off size ;;
      cs <- retain (mv_chunk w) (vs_chunks s) ;;
      Ok (VState (vs_views s ++ [Some w]) cs)
  | VAssign i j =>                                                         (* :102-110 *)
      w <- view s i ;;
      v <- view s j ;;
      cs <- retain (mv_chunk v) (vs_chunks s) ;;
      cs <- release (mv_chunk w) cs ;;
      Ok (VState (upd (vs_views s) i (Some v)) cs)
  | VMoveAssign i j =>                                                     (* :112-131 *)
      w <- view s i ;;
      v <- view s j ;;
      if (i =? j)%nat then
        (* memory_ = std::move(memory_) keeps the pointer; then size_ and offset_ become 0 *)
        Ok (VState (upd (vs_views s) i (Some (MView (mv_chunk v) 0 0))) (vs_chunks s))
      else
        cs <- release (mv_chunk w) (vs_chunks s) ;;
        Ok (VState (upd (upd (vs_views s) j (Some (MView None 0 0))) i (Some v)) cs)
  | VDestroy i =>
      v <- view s i ;;
      cs <- release (mv_chunk v) (vs_chunks s) ;;
      Ok (VState (upd (vs_views s) i None) cs)
  end.

Fixpoint vrun (ops : list vop) (s : vstate) : res vstate :=
  match ops with
  | [] => Ok s
  | o :: r => s' <- vstep s o ;; vrun r s'
  end.
Definition vinit : vstate := VState [] [].
