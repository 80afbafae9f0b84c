(** Specification vocabulary for shared pointers (C10). *)
From Verif Require Import Base SharedPtrModel.
Local Open Scope Z_scope.

(** the object whose lifetime the pointer variable prolongs *)
Definition owner (h : heap) (x : var) : obj := targ (blocks h (vpi x)).
Definition owned (h : heap) (o : obj) : Prop := exists x, In x (vars h) /\ owner h x = o.
(** raw pointers handed over to shared pointers are null or point to newly created objects *)
Definition fresh (h : heap) (p : obj) : Prop := p = 0 \/ ~ In p (given h).
Definition holder_alive (h : heap) (hd : option obj) : Prop :=
  match hd with None => True | Some o => o <> 0 /\ ~ In o (log h) end.
(** the object o is kept alive by something else than the variable v: it does not belong to any shared pointer (automatic
    object), or there is another pointer to it which is an automatic variable or a member of another object kept alive *)
Inductive kept_alive (h : heap) (v : nat) : obj -> Prop :=
| ka_auto o : ~ In o (given h) -> kept_alive h v o
| ka_root x : In x (vars h) -> vid x <> v -> vholder x = None -> kept_alive h v (owner h x)
| ka_chain x o : In x (vars h) -> vid x <> v -> vholder x = Some o -> kept_alive h v o -> kept_alive h v (owner h x).
(** rules of the language for using the class: variables are constructed once, used while alive, and an assignment does
    not destroy its own left-hand side *)
Definition legal (h : heap) (o : op) : Prop :=
  match o with
  | New v hd p _ => live h v = false /\ holder_alive h hd /\ fresh h p
  | Copy v hd w => live h v = false /\ holder_alive h hd /\ live h w = true
  | Alias v hd w _ => live h v = false /\ holder_alive h hd /\ live h w = true
  | Assign v w => live h w = true /\ exists x, In x (vars h) /\ vid x = v /\
                  match vholder x with None => True | Some o => kept_alive h v o end
  | Reset v p _ => live h v = true /\ (fresh h p \/ exists x, In x (vars h) /\ vid x = v /\ vpx x = p)
  | Swap v w => live h v = true /\ live h w = true
  | Destroy v => live h v = true
  end.
Inductive legal_history : heap -> list op -> Prop :=
| lh_nil h : legal_history h []
| lh_cons h o l : legal h o -> (forall h', step h o = Ok h' -> legal_history h' l) -> legal_history h (o :: l).
(** what the user sees of a variable: containing object, stored pointer, owned object *)
Definition state_of (h : heap) (u : nat) : option (option obj * obj * obj) :=
  match find_var h u with Some x => Some (vholder x, vpx x, owner h x) | None => None end.
(** the documented effect of an operation on each variable *)
Definition intended (h : heap) (o : op) (u : nat) : option (option obj * obj * obj) :=
  match o with
  | New v hd p oom => if Nat.eqb u v && negb oom then Some (hd, p, p) else state_of h u
  | Copy v hd w => if Nat.eqb u v then match state_of h w with Some (_, p, ow) => Some (hd, p, ow) | None => None end else state_of h u
  | Alias v hd w p => if Nat.eqb u v then match state_of h w with Some (_, _, ow) => Some (hd, p, ow) | None => None end else state_of h u
  | Assign v w => if Nat.eqb u v then match state_of h v, state_of h w with Some (hd, _, _), Some (_, p, ow) => Some (hd, p, ow) | _, _ => None end
                  else state_of h u
  | Reset v p oom => if Nat.eqb u v && negb oom then match state_of h v with Some (hd, q, ow) => if q =? p then Some (hd, q, ow) else Some (hd, p, p) | None => None end
                     else state_of h u
  | Swap v w => if Nat.eqb u v then match state_of h v, state_of h w with Some (hd, _, _), Some (_, p, ow) => Some (hd, p, ow) | _, _ => None end
                else if Nat.eqb u w then match state_of h w, state_of h v with Some (hd, _, _), Some (_, p, ow) => Some (hd, p, ow) | _, _ => None end
                else state_of h u
  | Destroy v => if Nat.eqb u v then None else state_of h u
  end.
(** members of disposed objects are gone *)
Definition purge (gone : list obj) (s : option (option obj * obj * obj)) : option (option obj * obj * obj) :=
  match s with Some (Some o, p, ow) => if existsb (Z.eqb o) gone then None else s | _ => s end.
