(** The node editor IPC channel. Models tools/NodeEditorIpc/NodeEditorIpc_C.cpp:33-285
    (fnEditorIpcSetup, fnEditorIpcRelease, SendMessage, fnEditorIpcPollMessage), the POSIX
    variant. A world holds the shared memory objects ever created, which one (if any) the name
    /FastNoise2NodeEditor denotes, and the contexts of all processes. Failures of
    shm_open, ftruncate and mmap are not modelled. Each call is one step here; partial
    executions of SendMessage are modelled by [send_writes] below. Bytes are integers in
    [0,256); a C string is a list of non-zero bytes, stored with a final 0. *)
From Coq Require Import ZArith List Bool.
From Verif Require Import Prelude.
Import ListNotations.
Open Scope Z_scope.

(** include/FastNoise/NodeEditorIpc_C.h: message codes *)
Definition NOT_INITIALISED := -2.
Definition TOO_SMALL := -1.
Definition MSG_NONE := 0.
Definition SELECTED_NODE := 1.
Definition IMPORT_REQUEST := 2.

(** 34 *)
Definition SZ : nat := Z.to_nat (64 * 1024).

(** 48-55; the context of a process: the mapped object and lastCounter *)
Record world := { segs : list (list Z); named : option nat; ctxs : list (option (nat * Z)) }.
Definition world0 : world := {| segs := []; named := None; ctxs := [] |}.

(** 57-149; returns the handle (index of the new context) *)
Definition setup (w : world) (readPrevious : bool) : res (option nat * world) :=
  let '(g, segs', named') := match named w with
    | Some g => (g, segs w, named w)
    | None => (length (segs w), segs w ++ [repeat 0 SZ], Some (length (segs w)))
    end in
  mem <- rd segs' g ;
  cnt <- rd mem 0 ;
  msg <- rd mem 1 ;
  let last := if readPrevious && (msg =? SELECTED_NODE) then u8 (cnt - 1) else cnt in
  Ok (Some (length (ctxs w)), {| segs := segs'; named := named'; ctxs := ctxs w ++ [Some (g, last)] |}).

(** 151-180; the name is unlinked whoever releases *)
Definition release (w : world) (ipc : option nat) : res world :=
  match ipc with
  | None => Ok w
  | Some c => match nth_error (ctxs w) c with
              | Some (Some _) => Ok {| segs := segs w; named := None; ctxs := upd (ctxs w) c None |}
              | _ => UB
              end
  end.

(** memcpy into the shared memory *)
Fixpoint write (mem : list Z) (at_ : nat) (bytes : list Z) : res (list Z) :=
  match bytes with [] => Ok mem | b :: r => mem <- wr mem at_ b ; write mem (S at_) r end.

(** 182-223 *)
Definition send (w : world) (ipc : option nat) (messageType : Z) (text : option (list Z)) : res (bool * world) :=
  match ipc, text with
  | Some c, Some s =>
      match nth_error (ctxs w) c with
      | Some (Some (g, _)) =>
          if (SZ <=? length s + 3)%nat then Ok (false, w)
          else
            mem <- rd (segs w) g ;
            mem <- write mem 2 (s ++ [0]) ;
            mem <- wr mem 1 messageType ;
            cnt <- rd mem 0 ;
            mem <- wr mem 0 (u8 (cnt + 1)) ;
            Ok (true, {| segs := upd (segs w) g mem; named := named w; ctxs := upd (ctxs w) c (Some (g, u8 (cnt + 1))) |})
      | _ => UB
      end
  | _, _ => Ok (false, w)
  end.

(** strlen / the string at an address; None: no terminator before the end of the mapping *)
Fixpoint cstr (l : list Z) : option (list Z) :=
  match l with [] => None | b :: r => if b =? 0 then Some [] else match cstr r with Some s => Some (b :: s) | None => None end end.

(** 235-285; [outBuffer] is the memory the pointer designates (None: null), returned as left behind *)
Definition poll (w : world) (ipc : option nat) (outBuffer : option (list Z)) (bufferSize : Z) : res (Z * option (list Z) * world) :=
  match ipc with
  | None => Ok (NOT_INITIALISED, outBuffer, w)
  | Some c =>
      match nth_error (ctxs w) c with
      | Some (Some (g, last)) =>
          mem <- rd (segs w) g ;
          cnt <- rd mem 0 ;
          ty <- rd mem 1 ;
          let consumed := {| segs := segs w; named := named w; ctxs := upd (ctxs w) c (Some (g, cnt)) |} in
          if cnt =? last then Ok (MSG_NONE, outBuffer, w)
          else if negb (ty =? SELECTED_NODE) && negb (ty =? IMPORT_REQUEST) then Ok (MSG_NONE, outBuffer, consumed)
          else match outBuffer with
               | None => Ok (TOO_SMALL, outBuffer, w)
               | Some buf =>
                   if bufferSize <=? 0 then Ok (TOO_SMALL, outBuffer, w)
                   else match cstr (skipn 2 mem) with
                        | None => UB
                        | Some data =>
                            if bufferSize <? s32 (Z.of_nat (length data) + 1) then Ok (TOO_SMALL, outBuffer, consumed)
                            else buf <- write buf 0 (data ++ [0]) ; Ok (ty, Some buf, consumed)
                        end
               end
      | _ => UB
      end
  end.

(** ** Whole histories *)
Inductive event :=
  | ESetup (readPrevious : bool)
  | ERelease (ipc : option nat)
  | ESend (ipc : option nat) (messageType : Z) (text : option (list Z))
  | EPoll (ipc : option nat) (outBuffer : option (list Z)) (bufferSize : Z).
Inductive reply := RHandle (h : option nat) | RUnit | RBool (b : bool) | RPoll (code : Z) (outBuffer : option (list Z)).
Definition do (w : world) (e : event) : res (reply * world) :=
  match e with
  | ESetup rp => ' (h, w) <- setup w rp ; Ok (RHandle h, w)
  | ERelease h => w <- release w h ; Ok (RUnit, w)
  | ESend h t s => ' (b, w) <- send w h t s ; Ok (RBool b, w)
  | EPoll h b n => ' (c, b, w) <- poll w h b n ; Ok (RPoll c b, w)
  end.
Fixpoint runs (w : world) (es : list event) : res (list reply * world) :=
  match es with [] => Ok ([], w) | e :: r => ' (a, w) <- do w e ; ' (l, w) <- runs w r ; Ok (a :: l, w) end.

(** ** Partial executions: the writes of SendMessage in program order (206-217) *)
Definition send_writes (messageType cnt : Z) (s : list Z) : list (nat * Z) :=
  combine (seq 2 (S (length s))) (s ++ [0]) ++ [(1%nat, messageType); (0%nat, u8 (cnt + 1))].
Definition apply_writes (mem : list Z) (ws : list (nat * Z)) : list Z := fold_left (fun m w => upd m (fst w) (snd w)) ws mem.
