(** Model of utils::CtrlBreakHandler (/repo/src/utils.cpp:203-232).
    The signal SIGINT may arrive between any two statements: constructor and destructor are split into the elementary
    statements, and a history is a sequence of such statements interleaved with signals.
    [handler]: the handler installed for SIGINT: [None] = customCtrlBreakHandler, [Some h] = some other handler h.
    [delivered]: the signals that were passed to other handlers, most recent first.
    Not modelled: several threads constructing the objects at once, failure of push_back. *)
From Coq Require Import List Bool Arith Lia.
From Verif Require Import Base.

Record cb_state := mkCB { flag : bool; stack : list (option nat); handler : option nat; delivered : list nat }.
(** program start: some handler h is installed; the flag has an arbitrary value *)
Definition cb_init (f : bool) (h : nat) : cb_state := mkCB f [] (Some h) [].

Inductive ev :=
| CtorClear     (* utils.cpp:218-219: if(prevCtrlBreakHandler.empty()) ctrlBreakTriggered = false; *)
| CtorInstall   (* utils.cpp:221: prevCtrlBreakHandler.push_back(signal(SIGINT, customCtrlBreakHandler)) *)
| DtorRestore   (* utils.cpp:228: signal(SIGINT, prevCtrlBreakHandler.back()) *)
| DtorPop       (* utils.cpp:229: prevCtrlBreakHandler.pop_back() *)
| Interrupt     (* the user presses Ctrl-C *)
| Other (h : nat).  (* unrelated code installs another handler h: signal(SIGINT, h) *)

Definition cb_step (s : cb_state) (e : ev) : res cb_state :=
  match e with
  | CtorClear => Ok (match stack s with [] => mkCB false [] (handler s) (delivered s) | _ => s end)
  | CtorInstall => Ok (mkCB (flag s) (handler s :: stack s) None (delivered s))
  | DtorRestore => match stack s with [] => UB | h :: _ => Ok (mkCB (flag s) (stack s) h (delivered s)) end
  | DtorPop => match stack s with [] => UB | _ :: r => Ok (mkCB (flag s) r (handler s) (delivered s)) end
  | Interrupt => Ok (match handler s with
                     | None => mkCB true (stack s) None (delivered s)          (* utils.cpp:209 *)
                     | Some h => mkCB (flag s) (stack s) (Some h) (h :: delivered s) end)
  | Other h => Ok (mkCB (flag s) (stack s) (Some h) (delivered s))
  end.
(** CtrlBreakHandler::triggered, utils.cpp:232 *)
Definition triggered (s : cb_state) : bool := flag s.
Fixpoint cb_run (s : cb_state) (l : list ev) : res cb_state :=
  match l with [] => Ok s | e :: l' => s' <- cb_step s e ;; cb_run s' l' end.
