(** Model of the reference-counting shared pointer /repo/src/shared_ptr.h (whole file).
    Memory is a collection of pointer variables (each either an automatic/static variable or a member of some object),
    control blocks (counted_base) and objects.  Addresses are never reused in the model (simplification: a freed address
    is never allocated again), so that any later access to it is visible as the outcome [UB].
    The objects' destructors destroy their member pointers, which may dispose of further objects.
    Not modelled: threads (the header says "not thread-safe"), destructors that do anything else. *)
From Coq Require Import ZArith List Lia Bool Arith.
Import ListNotations.
From Verif Require Import Base.
Local Open Scope Z_scope.

Definition obj := Z.                                 (* address of an object; 0 is the null pointer *)
(** a live shared_ptr variable: shared_ptr.h:104-107 (px, pn.pi_); [vholder] = object containing the variable, if any *)
Record var := mkVar { vid : nat; vholder : option obj; vpx : obj; vpi : nat }.
(** a control block: use_count_ (shared_ptr.h:41) and the pointer given to its deleter (48); use count 0 = deallocated *)
Record blk := mkBlk { cnt : Z; targ : obj }.
Record heap := mkHeap { vars : list var; blocks : nat -> blk; next : nat; log : list obj; given : list obj }.
Definition heap0 : heap := mkHeap [] (fun _ => mkBlk 0 0) 0 [] [].

Definition setb (f : nat -> blk) (b : nat) (x : blk) : nat -> blk := fun i => if Nat.eqb i b then x else f i.
Definition find_var (h : heap) (v : nat) : option var := find (fun x => Nat.eqb (vid x) v) (vars h).
Definition live (h : heap) (v : nat) : bool := existsb (fun x => Nat.eqb (vid x) v) (vars h).
Definition held_by (o : obj) (x : var) : bool := match vholder x with Some o' => o =? o' | None => false end.
Definition without (h : heap) (v : nat) : list var := filter (fun x => negb (Nat.eqb (vid x) v)) (vars h).

(** add_ref, shared_ptr.h:22-25; on a deallocated block: UB *)
Definition add_ref (h : heap) (b : nat) : res heap :=
  let k := blocks h b in
  if cnt k <=? 0 then UB else
  Ok (mkHeap (vars h) (setb (blocks h) b (mkBlk (cnt k + 1) (targ k))) (next h) (log h) (given h)).
(** release, shared_ptr.h:27-34, for a list of blocks to be released in order: when the count drops to zero, dispose()
    (line 58) deletes the object, which is recorded in [log]; its member pointers are destroyed and their blocks are
    released next (nested calls of release); deleting a null pointer does nothing *)
Fixpoint release (fuel : nat) (h : heap) (pending : list nat) : res heap :=
  match pending with
  | [] => Ok h
  | b :: rest =>
    match fuel with
    | O => Fuel
    | S fuel' =>
      let k := blocks h b in
      if cnt k <=? 0 then UB else
      let f := setb (blocks h) b (mkBlk (cnt k - 1) (targ k)) in
      if cnt k - 1 =? 0 then
        if targ k =? 0 then release fuel' (mkHeap (vars h) f (next h) (log h) (given h)) rest else
        if existsb (Z.eqb (targ k)) (log h) then UB else       (* deleting an object twice *)
        let gone := filter (held_by (targ k)) (vars h) in
        let kept := filter (fun x => negb (held_by (targ k) x)) (vars h) in
        release fuel' (mkHeap kept f (next h) (targ k :: log h) (given h)) (map vpi gone ++ rest)
      else release fuel' (mkHeap (vars h) f (next h) (log h) (given h)) rest
    end
  end.
Definition rel (h : heap) (b : nat) : res heap := release (Datatypes.S (length (vars h))) h [b].

(** the shared_count(p, d) constructor, shared_ptr.h:70-79: allocates a block with use count 1; if the allocation fails
    ([oom]), the object is deleted and an exception is thrown.  [p] must be null or an object not given to any
    shared_ptr before. *)
Definition give (h : heap) (p : obj) : list obj := if p =? 0 then given h else p :: given h.
Definition new_block (h : heap) (p : obj) : heap * nat :=
  (mkHeap (vars h) (setb (blocks h) (next h) (mkBlk 1 p)) (Datatypes.S (next h)) (log h) (give h p), next h).
Definition alloc_failure (h : heap) (p : obj) : res heap :=
  if p =? 0 then Ok h else
  release (length (vars h)) (mkHeap (filter (fun x => negb (held_by p x)) (vars h)) (blocks h) (next h) (p :: log h) (give h p))
          (map vpi (filter (held_by p) (vars h))).
Definition add_var (h : heap) (x : var) : heap := mkHeap (x :: vars h) (blocks h) (next h) (log h) (given h).
Definition drop_var (h : heap) (v : nat) : heap := mkHeap (without h v) (blocks h) (next h) (log h) (given h).
(** overwrite the two members of the variable v *)
Definition set_var (h : heap) (v : nat) (px : obj) (pi : nat) : heap :=
  mkHeap (map (fun x => if Nat.eqb (vid x) v then mkVar (vid x) (vholder x) px pi else x) (vars h))
         (blocks h) (next h) (log h) (given h).

Inductive op :=
| New (v : nat) (holder : option obj) (p : obj) (oom : bool)  (* shared_ptr(T* p), shared_ptr(p, deleter): shared_ptr.h:122-124 *)
| Copy (v : nat) (holder : option obj) (w : nat)              (* shared_ptr(const shared_ptr&): 126, 86-89 *)
| Alias (v : nat) (holder : option obj) (w : nat) (p : obj)   (* aliasing constructor: 128 *)
| Assign (v w : nat)                                          (* operator=: 130-134, 91-98 *)
| Reset (v : nat) (p : obj) (oom : bool)                      (* reset: 136-140 *)
| Swap (v w : nat)                                            (* swap: 151-155, 100-105 *)
| Destroy (v : nat).                                          (* destructor: 81-84 *)

(** operations on variables that are not alive are [UB] *)
Definition step (h : heap) (o : op) : res heap :=
  match o with
  | New v hd p oom =>
      if live h v then UB else
      if oom then alloc_failure h p else
      let (h', b) := new_block h p in Ok (add_var h' (mkVar v hd p b))
  | Copy v hd w =>
      if live h v then UB else
      match find_var h w with
      | None => UB
      | Some x => h' <- add_ref h (vpi x) ;; Ok (add_var h' (mkVar v hd (vpx x) (vpi x)))
      end
  | Alias v hd w p =>
      if live h v then UB else
      match find_var h w with
      | None => UB
      | Some x => h' <- add_ref h (vpi x) ;; Ok (add_var h' (mkVar v hd p (vpi x)))
      end
  | Assign v w =>
      match find_var h v, find_var h w with
      | Some x, Some y =>
          (* add_ref of the new block, release of the old one, then pi_ is overwritten: if *this has been destroyed in the
             course of release() this is a write to deallocated memory *)
          h1 <- add_ref h (vpi y) ;;
          h2 <- rel (drop_var h1 v) (vpi x) ;;
          if match vholder x with Some o' => existsb (Z.eqb o') (log h2) | None => false end then UB else
          Ok (add_var h2 (mkVar v (vholder x) (vpx y) (vpi y)))
      | _, _ => UB
      end
  | Reset v p oom =>
      match find_var h v with
      | None => UB
      | Some x =>
          if vpx x =? p then Ok h else
          if oom then alloc_failure h p else
          let (h', b) := new_block h p in
          rel (set_var h' v p b) (vpi x)
      end
  | Swap v w =>
      match find_var h v, find_var h w with
      | Some x, Some y => Ok (set_var (set_var h v (vpx y) (vpi y)) w (vpx x) (vpi x))
      | _, _ => UB
      end
  | Destroy v =>
      match find_var h v with
      | None => UB
      | Some x => rel (drop_var h v) (vpi x)
      end
  end.
(** a history of operations; [None] is returned together with the first failure *)
Fixpoint run (h : heap) (l : list op) : res heap :=
  match l with [] => Ok h | o :: l' => h' <- step h o ;; run h' l' end.
