(** Specification for C11: an observer who sees only the sequence of events. *)
From Coq Require Import List Bool Arith Lia.
From Verif Require Import Base CtrlBreakModel.

(** position in the program: between objects' constructors/destructors, inside a constructor, inside a destructor *)
Inductive phase := Idle | InCtor | InDtor.
(** what the observer knows: number of objects alive, position, handler installed when none is alive, whether an
    interrupt arrived since the outermost object came into force, and the interrupts due to the outer handlers *)
Record view := mkView { depth : nat; ph : phase; outer : nat; seen : bool; outside : list nat }.
(** sequences allowed by the scoping rules of C++: the two halves of constructors and destructors follow each other
    (with interrupts in between), destructors run only for existing objects; other code replaces the handler only when no
    object exists *)
Inductive allowed : view -> ev -> view -> Prop :=
| al_clear d o s l : allowed (mkView d Idle o s l) CtorClear (mkView d InCtor o (if Nat.eqb d 0 then false else s) l)
| al_install d o s l : allowed (mkView d InCtor o s l) CtorInstall (mkView (S d) Idle o s l)
| al_restore d o s l : allowed (mkView (S d) Idle o s l) DtorRestore (mkView (S d) InDtor o s l)
| al_pop d o s l : allowed (mkView (S d) InDtor o s l) DtorPop (mkView d Idle o s l)
| al_other o s l h : allowed (mkView 0 Idle o s l) (Other h) (mkView 0 Idle h s l)
| al_int d p o s l : (* an interrupt arriving while an object is in force is remembered, otherwise it goes to the outer handler *)
    allowed (mkView d p o s l) Interrupt
      (if match d, p with 0, _ => false | 1, InDtor => false | _, _ => true end then mkView d p o true l else mkView d p o s (o :: l)).
Inductive history : view -> list ev -> view -> Prop :=
| hi_nil v : history v [] v
| hi_cons v e v1 l v2 : allowed v e v1 -> history v1 l v2 -> history v (e :: l) v2.
