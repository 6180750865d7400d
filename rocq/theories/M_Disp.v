(** Model of utils/intmproc.py: DispenserManager (19-232) and IndiWorker (236-290), as processes that interleave arbitrarily.
    - Python objects are untyped: parameters, results and the message "Started" are all of the type [val].
    - A multiprocessing.Queue is a pipe that both processes read, with a buffer on either side that a feeder thread empties into the pipe: put() writes into the own buffer,
      get() blocks until the pipe holds something. A multiprocessing.Event is a flag shared between processes.
    - Work that touches no shared object is merged into the neighbouring step. sleep(), timing, printing and warnings are left out.
    - The attributes __workers_pool, __triggers, __queues live in the class (24-25) and __init__ only appends to them: all managers share them, until close() gives the
      instance lists of its own (189-190). *)
From Verif Require Import Py.
Open Scope nat_scope.

Definition upd {A} (l : list A) (i : nat) (g : A -> A) : list A :=
  firstn i l ++ match skipn i l with [] => [] | x :: tl => g x :: tl end.

Section Disp.
Context {val : Type}.
Variable started : val.

(** where a worker is in run(), 273-290 *)
Inductive wpc :=
  | WBegin          (* 273-274 *)
  | WLoop           (* 275 *)
  | WWait           (* 276 *)
  | WCheck          (* 277, 289 *)
  | WGet            (* 283 *)
  | WRun (p : val)  (* 285 *)
  | WPut (v : val)  (* 286 *)
  | WClear          (* 287 *)
  | WDead.          (* the process has ended *)
(** one worker with its function (None: it raises), the manager that made it, its live event, its trigger and its queue *)
Record worker := mkW { wfun : val -> option val; wman : nat; keep : bool; trig : bool; mbuf : list val; pipe : list val; wbuf : list val; pc : wpc }.
Definition set_pc c w := mkW (wfun w) (wman w) (keep w) (trig w) (mbuf w) (pipe w) (wbuf w) c.
Definition set_trig b w := mkW (wfun w) (wman w) (keep w) b (mbuf w) (pipe w) (wbuf w) (pc w).
Definition set_keep b w := mkW (wfun w) (wman w) b (trig w) (mbuf w) (pipe w) (wbuf w) (pc w).
Definition set_mbuf q w := mkW (wfun w) (wman w) (keep w) (trig w) q (pipe w) (wbuf w) (pc w).
Definition set_pipe q w := mkW (wfun w) (wman w) (keep w) (trig w) (mbuf w) q (wbuf w) (pc w).
Definition set_wbuf q w := mkW (wfun w) (wman w) (keep w) (trig w) (mbuf w) (pipe w) q (pc w).

(** the next action of a worker, 273-290. The two flags of 277 (and of 289) are read at once: only the main process sets the trigger and clears the live event. *)
Definition worker_step (w : worker) : worker :=
  match pc w with
  | WBegin => if keep w then set_pc WLoop (set_wbuf (wbuf w ++ [started]) w) else set_pc WDead w
  | WLoop => set_pc (if keep w then WWait else WDead) w
  | WWait => if trig w then set_pc WCheck w else w
  | WCheck => if (trig w && keep w)%bool then set_pc WGet w else if keep w then set_pc WLoop w else set_pc WDead (set_trig false w)
  | WGet => match pipe w with p :: q => set_pc (WRun p) (set_pipe q w) | [] => w end
  | WRun p => match wfun w p with Some v => set_pc (WPut v) w | None => set_pc WDead w end
  | WPut v => set_pc WClear (set_wbuf (wbuf w ++ [v]) w)
  | WClear => set_pc WLoop (set_trig false w)
  | WDead => w
  end.
(** the feeder threads of the two sides *)
Definition feed_m (w : worker) : worker := match mbuf w with x :: q => set_pipe (pipe w ++ [x]) (set_mbuf q w) | [] => w end.
Definition feed_w (w : worker) : worker := match wbuf w with x :: q => set_pipe (pipe w ++ [x]) (set_wbuf q w) | [] => w end.

(** calls that a program makes *)
Inductive op :=
  | New (f : val -> option val) (n_workers : option nat) (params_list : list val)
  | Compute (k : nat) | Update (k : nat) (params_list : list val) | Close (k : nat).   (* k: the k-th manager made *)
(** what a call returns or raises; New, update_params and close() return nothing on success *)
Inductive outcome := OResult (r : list (option val)) | ONone | OError (e : exc).

(** where the main process is *)
Inductive mpc :=
  | Ready                        (* between two calls *)
  | Spawn (k lft : nat)         (* 84 *)
  | Confirm (k lft i : nat)     (* 88-98, for worker i *)
  | IPut (k i : nat)             (* 132-134, 137 *)
  | ISet (k i : nat)             (* 135 *)
  | Poll (k i : nat)             (* 141-142; 129 when i runs out *)
  | Get (k i : nat)              (* 143-147 *)
  | NPut (k i : nat)             (* 148-149 *)
  | NSet (k i : nat)             (* 150 *)
  | CKeep (k : nat)              (* 182 *)
  | CTrig (k i : nat).           (* 183-190 *)
(** a manager: own lists of workers (None: those of the class), parameters, results, __initialized, number of workers *)
Record manager := mkM { own : option (list nat); params : list val; results : list (option val); inited : bool; n_work : nat }.
(** the local variables of compute(), 127-128: task_assigned and processing_indices merged *)
Record local := mkL { computed : nat; rest : list nat; slots : list (option nat) }.
Record world := mkWorld { heap : list worker; pool : list nat; mans : list manager; todo : list op; main : mpc; loc : local; out : list outcome }.
Definition with_heap h s := mkWorld h (pool s) (mans s) (todo s) (main s) (loc s) (out s).
Definition with_pool p s := mkWorld (heap s) p (mans s) (todo s) (main s) (loc s) (out s).
Definition with_mans m s := mkWorld (heap s) (pool s) m (todo s) (main s) (loc s) (out s).
Definition with_todo t s := mkWorld (heap s) (pool s) (mans s) t (main s) (loc s) (out s).
Definition goto c s := mkWorld (heap s) (pool s) (mans s) (todo s) c (loc s) (out s).
Definition with_loc l s := mkWorld (heap s) (pool s) (mans s) (todo s) (main s) l (out s).
Definition say o s := mkWorld (heap s) (pool s) (mans s) (todo s) (main s) (loc s) (out s ++ [o]).

Definition no_manager := mkM None [] [] false 0.
Definition man (s : world) (k : nat) : manager := nth k (mans s) no_manager.
Definition workers_of (s : world) (k : nat) : list nat := match own (man s k) with Some l => l | None => pool s end.
Definition on_worker (i : nat) (g : worker -> worker) (s : world) : world := with_heap (upd (heap s) i g) s.
Definition on_man (k : nat) (g : manager -> manager) (s : world) : world := with_mans (upd (mans s) k g) s.
Definition set_results r m := mkM (own m) (params m) r (inited m) (n_work m).
Definition set_params p m := mkM (own m) p (map (fun _ => None) p) (inited m) (n_work m).
Definition set_inited m := mkM (own m) (params m) (results m) true (n_work m).
Definition closed m := mkM (Some []) [] [] false (n_work m).
Definition new_worker f k := mkW f k true false [] [] [] WBegin.

(** 59-70: the number of workers, from os.cpu_count() and the argument *)
Definition workers_number (cpu_count : nat) (n_workers : option nat) : nat :=
  match n_workers with
  | Some n => if ((2 <=? n) && (n <=? cpu_count))%bool then n else cpu_count / 2
  | None => cpu_count / 2
  end.
(** start of a call: __init__ 59-82; compute() 126-128, 169-170; update_params() 223-232; close() 181, 188-190. *)
Definition bad_list (n : nat) (ps : list val) : option exc :=
  if (length ps =? 0) then Some TypeError else if (length ps <? n) then Some ValueError else None.
Definition begin (cpu_count : nat) (o : op) (s : world) : world :=
  match o with
  | New f n_workers ps =>
      let n := workers_number cpu_count n_workers in
      let s := with_mans (mans s ++ [mkM None ps (map (fun _ => None) ps) false n]) s in
      match bad_list n ps with
      | Some e => say (OError e) (with_todo (tl (todo s)) s)
      | None => goto (Spawn (length (mans s) - 1) n) s
      end
  | Compute k =>
      let s := with_todo (tl (todo s)) s in
      if inited (man s k) then
        goto (IPut k 0) (with_loc (mkL 0 (seq 0 (length (params (man s k)))) (map (fun _ => None) (workers_of s k))) s)
      else say ONone s
  | Update k ps =>
      let s := with_todo (tl (todo s)) s in
      if inited (man s k) then
        match bad_list (n_work (man s k)) ps with
        | Some e => say (OError e) s
        | None => on_man k (set_params ps) s
        end
      else s
  | Close k =>
      let s := with_todo (tl (todo s)) s in
      if inited (man s k) then goto (CKeep k) s else on_man k closed s
  end.

(** the next action of the main process *)
Definition main_step (cpu_count : nat) (s : world) : world :=
  match main s with
  | Ready => match todo s with o :: _ => begin cpu_count o s | [] => s end
  (* 84-87, 102: the call New itself stays at the head of todo until __init__ ends *)
  | Spawn k lft =>
      match lft, todo s with
      | S l, New f _ _ :: _ => goto (Confirm k l (length (heap s))) (with_heap (heap s ++ [new_worker f k]) s)
      | _, _ => goto Ready (with_todo (tl (todo s)) (on_man k set_inited s))
      end
  (* 88-98: any message ends the wait *)
  | Confirm k lft i =>
      match nth_error (heap s) i with
      | Some w => match pipe w with
                  | _ :: q => goto (Spawn k lft) (with_pool (pool s ++ [i]) (on_worker i (set_pipe q) s))
                  | [] => s
                  end
      | None => s
      end
  | IPut k i =>
      match nth_error (workers_of s k) i with
      | None => goto (Poll k 0) s
      | Some wi => match nth_error (params (man s k)) i with
                   | None => goto Ready (say (OError IndexError) s)
                   | Some p => goto (ISet k i) (on_worker wi (fun w => set_mbuf (mbuf w ++ [p]) w)
                                (with_loc (mkL (computed (loc s)) (remove Nat.eq_dec i (rest (loc s))) (upd (slots (loc s)) i (fun _ => Some i))) s))
                   end
      end
  | ISet k i => goto (IPut k (S i)) (match nth_error (workers_of s k) i with Some wi => on_worker wi (set_trig true) s | None => s end)
  | Poll k i =>
      match nth_error (workers_of s k) i with
      | None => if computed (loc s) <? length (results (man s k)) then goto (Poll k 0) s else goto Ready (say (OResult (results (man s k))) s)
      | Some wi => match nth_error (heap s) wi, nth_error (slots (loc s)) i with
                   | Some w, Some (Some _) => if trig w then goto (Poll k (S i)) s else goto (Get k i) s
                   | _, _ => goto (Poll k (S i)) s
                   end
      end
  | Get k i =>
      match nth_error (workers_of s k) i, nth_error (slots (loc s)) i with
      | Some wi, Some (Some j) =>
          match nth_error (heap s) wi with
          | Some w => match pipe w with
                      | v :: q =>
                          let s := on_worker wi (set_pipe q) s in
                          let s := on_man k (fun m => set_results (upd (results m) j (fun _ => Some v)) m) s in
                          let s := with_loc (mkL (S (computed (loc s))) (rest (loc s)) (upd (slots (loc s)) i (fun _ => None))) s in
                          goto (match rest (loc s) with [] => Poll k (S i) | _ :: _ => NPut k i end) s
                      | [] => s
                      end
          | None => s
          end
      | _, _ => s
      end
  | NPut k i =>
      match nth_error (workers_of s k) i, rest (loc s) with
      | Some wi, j :: rest' => match nth_error (params (man s k)) j with
                               | Some p => goto (NSet k i) (on_worker wi (fun w => set_mbuf (mbuf w ++ [p]) w)
                                            (with_loc (mkL (computed (loc s)) rest' (upd (slots (loc s)) i (fun _ => Some j))) s))
                               | None => goto Ready (say (OError IndexError) s)
                               end
      | _, _ => s
      end
  | NSet k i => goto (Poll k (S i)) (match nth_error (workers_of s k) i with Some wi => on_worker wi (set_trig true) s | None => s end)
  | CKeep k => goto (CTrig k 0) (with_heap (map (fun w => if wman w =? k then set_keep false w else w) (heap s)) s)
  | CTrig k i =>
      match nth_error (workers_of s k) i with
      | Some wi => goto (CTrig k (S i)) (on_worker wi (set_trig true) s)
      | None => goto Ready (on_man k closed s)
      end
  end.

(** one step of the whole system: who moves is up to the scheduler; a process that cannot move stays *)
Inductive agent := Main | Work (i : nat) | FeedM (i : nat) | FeedW (i : nat).
Definition act (cpu_count : nat) (a : agent) (s : world) : world :=
  match a with
  | Main => main_step cpu_count s
  | Work i => on_worker i worker_step s
  | FeedM i => on_worker i feed_m s
  | FeedW i => on_worker i feed_w s
  end.
(** the program [ops], run under the schedule [sch] *)
Definition start (ops : list op) : world := mkWorld [] [] [] ops Ready (mkL 0 [] []) [].
Fixpoint run (cpu_count : nat) (sch : nat -> agent) (ops : list op) (t : nat) : world :=
  match t with O => start ops | S t' => act cpu_count (sch t') (run cpu_count sch ops t') end.
End Disp.
Arguments op : clear implicits.
Arguments outcome : clear implicits.
Arguments world : clear implicits.
Arguments worker : clear implicits.
Arguments manager : clear implicits.
