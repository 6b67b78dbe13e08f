(** One iteration of the distributed primal decomposition: src/Optimization/hiopAlgPrimalDecomp.cpp,
    hiopAlgPrimalDecomposition::run (lines 790-1263; the exchange is at 897-1136) and run_local (1269-1785; 1383-1648,
    the same exchange of messages, the result being added up by the worker and only a signal sent).  Worker [w] (0-based) is the rank w+1 of the code.  Messages between the master and a
    worker stay in order.  A message is delivered by the receiver taking it; MPI_Wait on a send is
    taken to complete only once the message has been taken, the strictest reading of the standard.
    A result is represented by the recourse index it belongs to. *)
From Coq Require Import List Bool Arith.
Import ListNotations.

(** what a worker is doing: waiting for the first index (1017), waiting for an index or the end
    signal (1062-1063), evaluating an index (1022-1054, 1075-1105), left its loop (1072-1074), or
    evaluating -1, which is what the code does if the first message is the end signal (1017-1037) *)
Inductive wst := Fresh | Idle | Busy (i : nat) | Ended | Broken.
(** The part of the state that belongs to one worker:
    [w_in]  messages sent to it and not taken, [None] for the end signal -1 (tag 1)
    [w_out] results sent by it and not taken by the master (tag 2)
    [w_log] the indices it evaluated, in order
    and, on the master: [w_req] rec_prob[r] has a receive posted, [w_buf] the content of its buffer,
    [w_fin] finish_flag[r] (lines 940-943) *)
Record wk := Wk { w_in : list (option nat); w_st : wst; w_out : list nat; w_log : list nat;
                  w_req : bool; w_buf : option nat; w_fin : bool }.
(** where the master is: the loop at 924-930, the one at 932-935, the scan at 951-980 with the worker
    to be tested next, the loop at 996-1000, the one at 1123-1126, past it; [Aborted] after a failed assert *)
Inductive phase := Sending (k : nat) | Posting (k : nat) | Scanning (r : nat) | Stopping (k : nat) | Draining (k : nat) | Finished | Aborted.
(** [s_idx], [s_last]: idx and last_loop (921, 944); [s_acc]: the results added to rval and grad_r
    (960-963; in run_local the signals that were awaited), [None] for the initial content of a buffer; [s_sent]: the (worker, index) pairs sent *)
Record st := St { s_ph : phase; s_idx : nat; s_last : bool; s_ws : list wk; s_acc : list (option nat); s_sent : list (nat * nat) }.

(** hiopAlgPrimalDecomp.cpp 897-906, 941-943: one ReqRecourseApprox and one ReqContingencyIdx per rank *)
Definition wk0 : wk := Wk [] Fresh [] [] false None false.
(** assignment to the entry of one worker; the per-rank arrays of hiopAlgPrimalDecomp.cpp 897-1136 *)
Fixpoint upd (k : nat) (w : wk) (l : list wk) : list wk :=
  match l, k with [], _ => [] | _ :: l, 0 => w :: l | a :: l, S k => a :: upd k w l end.

Section Pd.
(** S_: the number of recourse terms; W: comm_size_-1 *)
Variables (S_ W : nat).
(** hiopAlgPrimalDecomp.cpp 897-921, 940-944 *)
Definition init : st := St (Sending 0) 0 false (repeat wk0 W) [] [].

(** hiopAlgPrimalDecomp.cpp 952, and test() at 86-95: MPI_Test on a null request succeeds, on a posted
    one it may succeed once the message was sent; [b]: the message arrived *)
Definition test (b : bool) (w : wk) : bool * wk :=
  if w_req w then
    match w_out w, b with
    | i :: o, true => (true, Wk (w_in w) (w_st w) o (w_log w) false (Some i) (w_fin w))
    | _, _ => (false, w)
    end
  else (true, w).
(** hiopAlgPrimalDecomp.cpp 950, 982-990: after a pass over the workers *)
Definition pass_end (s : st) : st :=
  let last := if s_last s then existsb (fun w => negb (w_fin w)) (s_ws s) else false in
  St (if (s_idx s <=? S_) || last then Scanning 0 else Stopping 0) (s_idx s) last (s_ws s) (s_acc s) (s_sent s).
(** one step of the master, hiopAlgPrimalDecomp.cpp 911-1000, 1122-1136; [None] while it is blocked *)
Definition master (b : bool) (s : st) : option st :=
  match s_ph s with
  | Sending k => (* 919, 924-930; MPI_Send is taken to return at once, if it waits for the worker the steps of the master come later *)
      if S_ <? W then Some (St Aborted (s_idx s) (s_last s) (s_ws s) (s_acc s) (s_sent s))
      else match nth_error (s_ws s) k with
           | Some w => Some (St (Sending (S k)) (S (s_idx s)) (s_last s)
                        (upd k (Wk (w_in w ++ [Some (s_idx s)]) (w_st w) (w_out w) (w_log w) (w_req w) (w_buf w) (w_fin w)) (s_ws s))
                        (s_acc s) (s_sent s ++ [(k, s_idx s)]))
           | None => Some (St (Posting 0) (s_idx s) (s_last s) (s_ws s) (s_acc s) (s_sent s))
           end
  | Posting k => (* 932-935, post_recv 121-127 *)
      match nth_error (s_ws s) k with
      | Some w => if w_req w then Some (St Aborted (s_idx s) (s_last s) (s_ws s) (s_acc s) (s_sent s))
                  else Some (St (Posting (S k)) (s_idx s) (s_last s)
                        (upd k (Wk (w_in w) (w_st w) (w_out w) (w_log w) true (w_buf w) (w_fin w)) (s_ws s)) (s_acc s) (s_sent s))
      | None => (* 950 *)
          Some (St (if (s_idx s <=? S_) || s_last s then Scanning 0 else Stopping 0) (s_idx s) (s_last s) (s_ws s) (s_acc s) (s_sent s))
      end
  | Scanning r => (* 951-980 *)
      match nth_error (s_ws s) r with
      | Some w =>
          let (tested, w1) := test b w in
          if tested && negb (w_fin w1) then
            let acc := s_acc s ++ [w_buf w1] in (* 960-963 *)
            let fin := if s_last s then true else w_fin w1 in (* 964-966 *)
            if s_idx s <? S_ then (* 968-972 *)
              match w_in w1 with
              | [] => if w_req w1 then Some (St Aborted (s_idx s) (s_last s) (s_ws s) (s_acc s) (s_sent s))
                      else Some (St (Scanning (S r)) (S (s_idx s)) (s_last s)
                            (upd r (Wk [Some (s_idx s)] (w_st w1) (w_out w1) (w_log w1) true (w_buf w1) fin) (s_ws s))
                            acc (s_sent s ++ [(r, s_idx s)]))
              | _ => None
              end
            else (* 974-978 *)
              Some (St (Scanning (S r)) (S (s_idx s)) true
                    (upd r (Wk (w_in w1) (w_st w1) (w_out w1) (w_log w1) (w_req w1) (w_buf w1) true) (s_ws s)) acc (s_sent s))
          else Some (St (Scanning (S r)) (s_idx s) (s_last s) (upd r w1 (s_ws s)) (s_acc s) (s_sent s))
      | None => Some (pass_end s)
      end
  | Stopping k => (* 996-1000 *)
      match nth_error (s_ws s) k with
      | Some w => match w_in w with
                  | [] => Some (St (Stopping (S k)) (s_idx s) (s_last s)
                        (upd k (Wk [None] (w_st w) (w_out w) (w_log w) (w_req w) (w_buf w) (w_fin w)) (s_ws s)) (s_acc s) (s_sent s))
                  | _ => None
                  end
      | None => Some (St (Draining 0) (s_idx s) (s_last s) (s_ws s) (s_acc s) (s_sent s))
      end
  | Draining k => (* 1123-1136 *)
      match nth_error (s_ws s) k with
      | Some w =>
          let done w := St (Draining (S k)) (s_idx s) (s_last s) (upd k w (s_ws s)) (s_acc s) (s_sent s) in
          match w_in w with
          | [] => if w_req w then
                    match w_out w with
                    | [] => None
                    | i :: o => Some (done (Wk [] (w_st w) o (w_log w) false (Some i) (w_fin w)))
                    end
                  else Some (done w)
          | _ => None
          end
      | None => if existsb w_req (s_ws s) then Some (St Aborted (s_idx s) (s_last s) (s_ws s) (s_acc s) (s_sent s))
                else Some (St Finished (s_idx s) (s_last s) (s_ws s) (s_acc s) (s_sent s))
      end
  | Finished => None
  | Aborted => None
  end.
(** a worker takes a message: MPI_Recv at 1017 for the first, test() at 1063 for the later ones, the
    check for the end signal at 1072 *)
Definition take (w : wk) : option wk :=
  match w_st w, w_in w with
  | Fresh, Some i :: q => Some (Wk q (Busy i) (w_out w) (w_log w) (w_req w) (w_buf w) (w_fin w))
  | Fresh, None :: q => Some (Wk q Broken (w_out w) (w_log w) (w_req w) (w_buf w) (w_fin w))
  | Idle, Some i :: q => Some (Wk q (Busy i) (w_out w) (w_log w) (w_req w) (w_buf w) (w_fin w))
  | Idle, None :: q => Some (Wk q Ended (w_out w) (w_log w) (w_req w) (w_buf w) (w_fin w))
  | _, _ => None
  end.
(** a worker ends an evaluation and sends the result: 1022-1061, 1075-1116; blocked at wait() (1055,
    1107) while the previous result was not taken *)
Definition eval (w : wk) : option wk :=
  match w_st w, w_out w with
  | Busy i, [] => Some (Wk (w_in w) Idle [i] (w_log w ++ [i]) (w_req w) (w_buf w) (w_fin w))
  | _, _ => None
  end.
(** the steps of the whole system: the scheduler chooses; hiopAlgPrimalDecomp.cpp 897-1136 *)
Inductive label := M (arrived : bool) | Take (w : nat) | Eval (w : nat).
(** one step of the master or of one worker; hiopAlgPrimalDecomp.cpp 897-1136 *)
Definition step (l : label) (s : st) : option st :=
  match l with
  | M b => master b s
  | Take k => match nth_error (s_ws s) k with
      | Some w => match take w with Some w => Some (St (s_ph s) (s_idx s) (s_last s) (upd k w (s_ws s)) (s_acc s) (s_sent s)) | None => None end
      | None => None
      end
  | Eval k => match nth_error (s_ws s) k with
      | Some w => match eval w with Some w => Some (St (s_ph s) (s_idx s) (s_last s) (upd k w (s_ws s)) (s_acc s) (s_sent s)) | None => None end
      | None => None
      end
  end.
(** an interleaving; hiopAlgPrimalDecomp.cpp 897-1136 *)
Fixpoint exec (ls : list label) (s : st) : option st :=
  match ls with [] => Some s | l :: ls => match step l s with Some s => exec ls s | None => None end end.
End Pd.
