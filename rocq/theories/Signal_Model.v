(** Model of /repo/src/jaqmc/utils/signal_handler.py (GracefulKiller, lines 7-27)
    at the granularity at which CPython may run a signal handler: between any two
    statements of the main program or of a handler that is already running. *)
From Coq Require Import List Bool.
Import ListNotations.

Inductive signo := SIGINT | SIGTERM.

(** What is installed for a signal: the handler that was there before the killer
    was built, or [GracefulKiller.exit_gracefully]. *)
Inductive handler := HOriginal (s : signo) | HKiller.

(** Statements of [exit_gracefully] (lines 22-27) and of [__init__] (lines 11-13;
    [self.x = signal.signal(..)] is an install followed by an attribute write). *)
Inductive stmt :=
| SCheckFlag                 (* line 22-23: if self._exit_requested: return *)
| SPrint                     (* line 24 *)
| SRestore (s : signo)       (* lines 25, 26 *)
| SSetFlag                   (* line 27 *)
| SInitFlag                  (* line 11 *)
| SInstall (s : signo)       (* lines 12, 13: the call signal.signal(..) *)
| SKeepOriginal (s : signo). (* lines 12, 13: the assignment to the attribute *)

(** Body of [exit_gracefully], lines 22-27. *)
Definition exit_gracefully : list stmt :=
  [SCheckFlag; SPrint; SRestore SIGINT; SRestore SIGTERM; SSetFlag].

(** Body of [__init__], lines 11-13. *)
Definition init_body : list stmt :=
  [SInitFlag; SInstall SIGINT; SKeepOriginal SIGINT; SInstall SIGTERM; SKeepOriginal SIGTERM].

(** A frame: remaining statements of a handler call or of [__init__]. *)
Record state := {
  exit_requested : bool;               (* line 15-17 *)
  h_int : handler;                     (* process-wide handler table *)
  h_term : handler;
  kept_int : bool;                     (* has self.original_int been assigned? *)
  kept_term : bool;
  frames : list (list stmt);           (* innermost first *)
  delivered : list signo;              (* signals that reached an original handler, newest first *)
  attribute_error : bool               (* exit_gracefully read a missing attribute *)
}.

Definition installed (st : state) (s : signo) : handler :=
  match s with SIGINT => h_int st | SIGTERM => h_term st end.

Definition set_handler (st : state) (s : signo) (h : handler) : state :=
  match s with
  | SIGINT => {| exit_requested := exit_requested st; h_int := h; h_term := h_term st;
                 kept_int := kept_int st; kept_term := kept_term st; frames := frames st;
                 delivered := delivered st; attribute_error := attribute_error st |}
  | SIGTERM => {| exit_requested := exit_requested st; h_int := h_int st; h_term := h;
                  kept_int := kept_int st; kept_term := kept_term st; frames := frames st;
                  delivered := delivered st; attribute_error := attribute_error st |}
  end.

Definition set_frames (st : state) (fs : list (list stmt)) : state :=
  {| exit_requested := exit_requested st; h_int := h_int st; h_term := h_term st;
     kept_int := kept_int st; kept_term := kept_term st; frames := fs;
     delivered := delivered st; attribute_error := attribute_error st |}.

Definition set_flag (st : state) (b : bool) : state :=
  {| exit_requested := b; h_int := h_int st; h_term := h_term st;
     kept_int := kept_int st; kept_term := kept_term st; frames := frames st;
     delivered := delivered st; attribute_error := attribute_error st |}.

Definition set_kept (st : state) (s : signo) : state :=
  {| exit_requested := exit_requested st; h_int := h_int st; h_term := h_term st;
     kept_int := match s with SIGINT => true | _ => kept_int st end;
     kept_term := match s with SIGTERM => true | _ => kept_term st end;
     frames := frames st; delivered := delivered st; attribute_error := attribute_error st |}.

Definition kept (st : state) (s : signo) : bool :=
  match s with SIGINT => kept_int st | SIGTERM => kept_term st end.

(** Execute one statement whose frame continues with [rest] (outer frames [fs]). *)
Definition exec (st : state) (c : stmt) (rest : list stmt) (fs : list (list stmt)) : state :=
  match c with
  | SCheckFlag => if exit_requested st then set_frames st fs else set_frames st (rest :: fs)
  | SPrint => set_frames st (rest :: fs)
  | SRestore s =>
      if kept st s then set_frames (set_handler st s (HOriginal s)) (rest :: fs)
      else {| exit_requested := exit_requested st; h_int := h_int st; h_term := h_term st;
              kept_int := kept_int st; kept_term := kept_term st; frames := [];
              delivered := delivered st; attribute_error := true |}
  | SSetFlag => set_frames (set_flag st true) (rest :: fs)
  | SInitFlag => set_frames (set_flag st false) (rest :: fs)
  | SInstall s => set_frames (set_handler st s HKiller) (rest :: fs)
  | SKeepOriginal s => set_frames (set_kept st s) (rest :: fs)
  end.

Inductive event :=
| Signal (s : signo)   (* the operating system delivers a signal *)
| Run.                 (* the interpreter executes one more statement *)

Definition step (st : state) (e : event) : state :=
  match e with
  | Signal s =>
      match installed st s with
      | HKiller => set_frames st (exit_gracefully :: frames st)
      | HOriginal _ =>
          {| exit_requested := exit_requested st; h_int := h_int st; h_term := h_term st;
             kept_int := kept_int st; kept_term := kept_term st; frames := frames st;
             delivered := s :: delivered st; attribute_error := attribute_error st |}
      end
  | Run =>
      match frames st with
      | [] => st
      | [] :: fs => set_frames st fs          (* return from the call *)
      | (c :: rest) :: fs => exec st c rest fs
      end
  end.

Definition run (st : state) (es : list event) : state := fold_left step es st.

(** Before [GracefulKiller()] is called. *)
Definition before_init : state :=
  {| exit_requested := false; h_int := HOriginal SIGINT; h_term := HOriginal SIGTERM;
     kept_int := false; kept_term := false; frames := [init_body];
     delivered := []; attribute_error := false |}.

(** After an undisturbed [__init__]. *)
Definition ready : state :=
  {| exit_requested := false; h_int := HKiller; h_term := HKiller;
     kept_int := true; kept_term := true; frames := [];
     delivered := []; attribute_error := false |}.
