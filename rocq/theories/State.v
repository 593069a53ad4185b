(** * State: the memory of the program.
    One record with every object the library shares between threads.  The
    record field [h_foo] has the setter [put_foo].  Objects are named by numbers. *)
From Verif Require Import Types Core.

(** Native threads: not yet created, running, ended; the flag tells whether a
    std::thread object is still attached (joinable()). *)
Inductive tstat := TNew | TRun (j : bool) | TEnd (j : bool).

Record heap := mkHeap {
  h_idgen : nat (* program_context::id_generator, thread.cpp:33 *);
  h_idmap : tid -> option id (* program_context::id_map, line 36 *);
  h_regd : list id (* the keys of program_context::contexts, line 37 *);
  h_mainid : id (* main_thread_id, line 38 *);
  h_initc : Z (* init_count, line 39 (Z: a wrap below 0 is visible) *);
  h_cleansig : bool (* cleanup_event (line 34) notified since the last waiter went to sleep *);
  h_ctxs : id -> ctx (* the thread_context objects, named by their id *);
  h_loc : tid -> option id (* thread_local local_data, line 48 *);
  h_tst : tid -> tstat (* status of the native threads *);
  h_tobj : nat -> option tid * id (* tpp::thread objects: native thread if joinable, and id_ (thread.h:64) *);
  h_now : Z (* steady_clock, nanoseconds *);
  h_sems : semid -> list waiter (* semaphore::waiters_, semaphore.h:106 *);
  h_toks : nat -> bool (* interrupt_token flags, semaphore.h:27 *);
  h_ntok : nat (* next interrupt_token *);
  h_locks : lockid -> option tid (* owners of the mutexes held across operations *);
  h_mxs : nat -> bool * id (* tpp::mutex objects: flag_, owner_ (mutex.hpp:79-80) *);
  h_fsts : sid -> fstate (* future_state objects *);
  h_nfs : nat (* next future_state *);
  h_prms : nat -> option sid (* promise objects of the user: state_, future.hpp:242 *);
  h_nprm : nat (* next promise object *);
  h_hnds : nat -> bool * option sid (* future objects: shared?, state_ (future.hpp:176) *);
  h_nhnd : nat (* next future object *);
  h_wcs : nat -> wctx (* contexts of when_all / when_any *);
  h_nw : nat (* next such context *);
  h_pools : nat -> pool (* thread_pool::impl objects *);
  h_npool : nat (* next impl *);
  h_pobj : nat -> option nat * option nat (* thread_pool objects: impl_, sentinel_ (thread_pool.h:210-212) *);
  h_sents : nat -> bool (* sentinel integers still alive *);
  h_nsent : nat (* next sentinel *);
  h_tr : list event (* the trace, newest event first *) }.

Definition put_idgen (h : heap) (v : nat) : heap := mkHeap v (h_idmap h) (h_regd h) (h_mainid h) (h_initc h) (h_cleansig h) (h_ctxs h) (h_loc h) (h_tst h) (h_tobj h) (h_now h) (h_sems h) (h_toks h) (h_ntok h) (h_locks h) (h_mxs h) (h_fsts h) (h_nfs h) (h_prms h) (h_nprm h) (h_hnds h) (h_nhnd h) (h_wcs h) (h_nw h) (h_pools h) (h_npool h) (h_pobj h) (h_sents h) (h_nsent h) (h_tr h).
Definition put_idmap (h : heap) (v : tid -> option id) : heap := mkHeap (h_idgen h) v (h_regd h) (h_mainid h) (h_initc h) (h_cleansig h) (h_ctxs h) (h_loc h) (h_tst h) (h_tobj h) (h_now h) (h_sems h) (h_toks h) (h_ntok h) (h_locks h) (h_mxs h) (h_fsts h) (h_nfs h) (h_prms h) (h_nprm h) (h_hnds h) (h_nhnd h) (h_wcs h) (h_nw h) (h_pools h) (h_npool h) (h_pobj h) (h_sents h) (h_nsent h) (h_tr h).
Definition put_regd (h : heap) (v : list id) : heap := mkHeap (h_idgen h) (h_idmap h) v (h_mainid h) (h_initc h) (h_cleansig h) (h_ctxs h) (h_loc h) (h_tst h) (h_tobj h) (h_now h) (h_sems h) (h_toks h) (h_ntok h) (h_locks h) (h_mxs h) (h_fsts h) (h_nfs h) (h_prms h) (h_nprm h) (h_hnds h) (h_nhnd h) (h_wcs h) (h_nw h) (h_pools h) (h_npool h) (h_pobj h) (h_sents h) (h_nsent h) (h_tr h).
Definition put_mainid (h : heap) (v : id) : heap := mkHeap (h_idgen h) (h_idmap h) (h_regd h) v (h_initc h) (h_cleansig h) (h_ctxs h) (h_loc h) (h_tst h) (h_tobj h) (h_now h) (h_sems h) (h_toks h) (h_ntok h) (h_locks h) (h_mxs h) (h_fsts h) (h_nfs h) (h_prms h) (h_nprm h) (h_hnds h) (h_nhnd h) (h_wcs h) (h_nw h) (h_pools h) (h_npool h) (h_pobj h) (h_sents h) (h_nsent h) (h_tr h).
Definition put_initc (h : heap) (v : Z) : heap := mkHeap (h_idgen h) (h_idmap h) (h_regd h) (h_mainid h) v (h_cleansig h) (h_ctxs h) (h_loc h) (h_tst h) (h_tobj h) (h_now h) (h_sems h) (h_toks h) (h_ntok h) (h_locks h) (h_mxs h) (h_fsts h) (h_nfs h) (h_prms h) (h_nprm h) (h_hnds h) (h_nhnd h) (h_wcs h) (h_nw h) (h_pools h) (h_npool h) (h_pobj h) (h_sents h) (h_nsent h) (h_tr h).
Definition put_cleansig (h : heap) (v : bool) : heap := mkHeap (h_idgen h) (h_idmap h) (h_regd h) (h_mainid h) (h_initc h) v (h_ctxs h) (h_loc h) (h_tst h) (h_tobj h) (h_now h) (h_sems h) (h_toks h) (h_ntok h) (h_locks h) (h_mxs h) (h_fsts h) (h_nfs h) (h_prms h) (h_nprm h) (h_hnds h) (h_nhnd h) (h_wcs h) (h_nw h) (h_pools h) (h_npool h) (h_pobj h) (h_sents h) (h_nsent h) (h_tr h).
Definition put_ctxs (h : heap) (v : id -> ctx) : heap := mkHeap (h_idgen h) (h_idmap h) (h_regd h) (h_mainid h) (h_initc h) (h_cleansig h) v (h_loc h) (h_tst h) (h_tobj h) (h_now h) (h_sems h) (h_toks h) (h_ntok h) (h_locks h) (h_mxs h) (h_fsts h) (h_nfs h) (h_prms h) (h_nprm h) (h_hnds h) (h_nhnd h) (h_wcs h) (h_nw h) (h_pools h) (h_npool h) (h_pobj h) (h_sents h) (h_nsent h) (h_tr h).
Definition put_loc (h : heap) (v : tid -> option id) : heap := mkHeap (h_idgen h) (h_idmap h) (h_regd h) (h_mainid h) (h_initc h) (h_cleansig h) (h_ctxs h) v (h_tst h) (h_tobj h) (h_now h) (h_sems h) (h_toks h) (h_ntok h) (h_locks h) (h_mxs h) (h_fsts h) (h_nfs h) (h_prms h) (h_nprm h) (h_hnds h) (h_nhnd h) (h_wcs h) (h_nw h) (h_pools h) (h_npool h) (h_pobj h) (h_sents h) (h_nsent h) (h_tr h).
Definition put_tst (h : heap) (v : tid -> tstat) : heap := mkHeap (h_idgen h) (h_idmap h) (h_regd h) (h_mainid h) (h_initc h) (h_cleansig h) (h_ctxs h) (h_loc h) v (h_tobj h) (h_now h) (h_sems h) (h_toks h) (h_ntok h) (h_locks h) (h_mxs h) (h_fsts h) (h_nfs h) (h_prms h) (h_nprm h) (h_hnds h) (h_nhnd h) (h_wcs h) (h_nw h) (h_pools h) (h_npool h) (h_pobj h) (h_sents h) (h_nsent h) (h_tr h).
Definition put_tobj (h : heap) (v : nat -> option tid * id) : heap := mkHeap (h_idgen h) (h_idmap h) (h_regd h) (h_mainid h) (h_initc h) (h_cleansig h) (h_ctxs h) (h_loc h) (h_tst h) v (h_now h) (h_sems h) (h_toks h) (h_ntok h) (h_locks h) (h_mxs h) (h_fsts h) (h_nfs h) (h_prms h) (h_nprm h) (h_hnds h) (h_nhnd h) (h_wcs h) (h_nw h) (h_pools h) (h_npool h) (h_pobj h) (h_sents h) (h_nsent h) (h_tr h).
Definition put_now (h : heap) (v : Z) : heap := mkHeap (h_idgen h) (h_idmap h) (h_regd h) (h_mainid h) (h_initc h) (h_cleansig h) (h_ctxs h) (h_loc h) (h_tst h) (h_tobj h) v (h_sems h) (h_toks h) (h_ntok h) (h_locks h) (h_mxs h) (h_fsts h) (h_nfs h) (h_prms h) (h_nprm h) (h_hnds h) (h_nhnd h) (h_wcs h) (h_nw h) (h_pools h) (h_npool h) (h_pobj h) (h_sents h) (h_nsent h) (h_tr h).
Definition put_sems (h : heap) (v : semid -> list waiter) : heap := mkHeap (h_idgen h) (h_idmap h) (h_regd h) (h_mainid h) (h_initc h) (h_cleansig h) (h_ctxs h) (h_loc h) (h_tst h) (h_tobj h) (h_now h) v (h_toks h) (h_ntok h) (h_locks h) (h_mxs h) (h_fsts h) (h_nfs h) (h_prms h) (h_nprm h) (h_hnds h) (h_nhnd h) (h_wcs h) (h_nw h) (h_pools h) (h_npool h) (h_pobj h) (h_sents h) (h_nsent h) (h_tr h).
Definition put_toks (h : heap) (v : nat -> bool) : heap := mkHeap (h_idgen h) (h_idmap h) (h_regd h) (h_mainid h) (h_initc h) (h_cleansig h) (h_ctxs h) (h_loc h) (h_tst h) (h_tobj h) (h_now h) (h_sems h) v (h_ntok h) (h_locks h) (h_mxs h) (h_fsts h) (h_nfs h) (h_prms h) (h_nprm h) (h_hnds h) (h_nhnd h) (h_wcs h) (h_nw h) (h_pools h) (h_npool h) (h_pobj h) (h_sents h) (h_nsent h) (h_tr h).
Definition put_ntok (h : heap) (v : nat) : heap := mkHeap (h_idgen h) (h_idmap h) (h_regd h) (h_mainid h) (h_initc h) (h_cleansig h) (h_ctxs h) (h_loc h) (h_tst h) (h_tobj h) (h_now h) (h_sems h) (h_toks h) v (h_locks h) (h_mxs h) (h_fsts h) (h_nfs h) (h_prms h) (h_nprm h) (h_hnds h) (h_nhnd h) (h_wcs h) (h_nw h) (h_pools h) (h_npool h) (h_pobj h) (h_sents h) (h_nsent h) (h_tr h).
Definition put_locks (h : heap) (v : lockid -> option tid) : heap := mkHeap (h_idgen h) (h_idmap h) (h_regd h) (h_mainid h) (h_initc h) (h_cleansig h) (h_ctxs h) (h_loc h) (h_tst h) (h_tobj h) (h_now h) (h_sems h) (h_toks h) (h_ntok h) v (h_mxs h) (h_fsts h) (h_nfs h) (h_prms h) (h_nprm h) (h_hnds h) (h_nhnd h) (h_wcs h) (h_nw h) (h_pools h) (h_npool h) (h_pobj h) (h_sents h) (h_nsent h) (h_tr h).
Definition put_mxs (h : heap) (v : nat -> bool * id) : heap := mkHeap (h_idgen h) (h_idmap h) (h_regd h) (h_mainid h) (h_initc h) (h_cleansig h) (h_ctxs h) (h_loc h) (h_tst h) (h_tobj h) (h_now h) (h_sems h) (h_toks h) (h_ntok h) (h_locks h) v (h_fsts h) (h_nfs h) (h_prms h) (h_nprm h) (h_hnds h) (h_nhnd h) (h_wcs h) (h_nw h) (h_pools h) (h_npool h) (h_pobj h) (h_sents h) (h_nsent h) (h_tr h).
Definition put_fsts (h : heap) (v : sid -> fstate) : heap := mkHeap (h_idgen h) (h_idmap h) (h_regd h) (h_mainid h) (h_initc h) (h_cleansig h) (h_ctxs h) (h_loc h) (h_tst h) (h_tobj h) (h_now h) (h_sems h) (h_toks h) (h_ntok h) (h_locks h) (h_mxs h) v (h_nfs h) (h_prms h) (h_nprm h) (h_hnds h) (h_nhnd h) (h_wcs h) (h_nw h) (h_pools h) (h_npool h) (h_pobj h) (h_sents h) (h_nsent h) (h_tr h).
Definition put_nfs (h : heap) (v : nat) : heap := mkHeap (h_idgen h) (h_idmap h) (h_regd h) (h_mainid h) (h_initc h) (h_cleansig h) (h_ctxs h) (h_loc h) (h_tst h) (h_tobj h) (h_now h) (h_sems h) (h_toks h) (h_ntok h) (h_locks h) (h_mxs h) (h_fsts h) v (h_prms h) (h_nprm h) (h_hnds h) (h_nhnd h) (h_wcs h) (h_nw h) (h_pools h) (h_npool h) (h_pobj h) (h_sents h) (h_nsent h) (h_tr h).
Definition put_prms (h : heap) (v : nat -> option sid) : heap := mkHeap (h_idgen h) (h_idmap h) (h_regd h) (h_mainid h) (h_initc h) (h_cleansig h) (h_ctxs h) (h_loc h) (h_tst h) (h_tobj h) (h_now h) (h_sems h) (h_toks h) (h_ntok h) (h_locks h) (h_mxs h) (h_fsts h) (h_nfs h) v (h_nprm h) (h_hnds h) (h_nhnd h) (h_wcs h) (h_nw h) (h_pools h) (h_npool h) (h_pobj h) (h_sents h) (h_nsent h) (h_tr h).
Definition put_nprm (h : heap) (v : nat) : heap := mkHeap (h_idgen h) (h_idmap h) (h_regd h) (h_mainid h) (h_initc h) (h_cleansig h) (h_ctxs h) (h_loc h) (h_tst h) (h_tobj h) (h_now h) (h_sems h) (h_toks h) (h_ntok h) (h_locks h) (h_mxs h) (h_fsts h) (h_nfs h) (h_prms h) v (h_hnds h) (h_nhnd h) (h_wcs h) (h_nw h) (h_pools h) (h_npool h) (h_pobj h) (h_sents h) (h_nsent h) (h_tr h).
Definition put_hnds (h : heap) (v : nat -> bool * option sid) : heap := mkHeap (h_idgen h) (h_idmap h) (h_regd h) (h_mainid h) (h_initc h) (h_cleansig h) (h_ctxs h) (h_loc h) (h_tst h) (h_tobj h) (h_now h) (h_sems h) (h_toks h) (h_ntok h) (h_locks h) (h_mxs h) (h_fsts h) (h_nfs h) (h_prms h) (h_nprm h) v (h_nhnd h) (h_wcs h) (h_nw h) (h_pools h) (h_npool h) (h_pobj h) (h_sents h) (h_nsent h) (h_tr h).
Definition put_nhnd (h : heap) (v : nat) : heap := mkHeap (h_idgen h) (h_idmap h) (h_regd h) (h_mainid h) (h_initc h) (h_cleansig h) (h_ctxs h) (h_loc h) (h_tst h) (h_tobj h) (h_now h) (h_sems h) (h_toks h) (h_ntok h) (h_locks h) (h_mxs h) (h_fsts h) (h_nfs h) (h_prms h) (h_nprm h) (h_hnds h) v (h_wcs h) (h_nw h) (h_pools h) (h_npool h) (h_pobj h) (h_sents h) (h_nsent h) (h_tr h).
Definition put_wcs (h : heap) (v : nat -> wctx) : heap := mkHeap (h_idgen h) (h_idmap h) (h_regd h) (h_mainid h) (h_initc h) (h_cleansig h) (h_ctxs h) (h_loc h) (h_tst h) (h_tobj h) (h_now h) (h_sems h) (h_toks h) (h_ntok h) (h_locks h) (h_mxs h) (h_fsts h) (h_nfs h) (h_prms h) (h_nprm h) (h_hnds h) (h_nhnd h) v (h_nw h) (h_pools h) (h_npool h) (h_pobj h) (h_sents h) (h_nsent h) (h_tr h).
Definition put_nw (h : heap) (v : nat) : heap := mkHeap (h_idgen h) (h_idmap h) (h_regd h) (h_mainid h) (h_initc h) (h_cleansig h) (h_ctxs h) (h_loc h) (h_tst h) (h_tobj h) (h_now h) (h_sems h) (h_toks h) (h_ntok h) (h_locks h) (h_mxs h) (h_fsts h) (h_nfs h) (h_prms h) (h_nprm h) (h_hnds h) (h_nhnd h) (h_wcs h) v (h_pools h) (h_npool h) (h_pobj h) (h_sents h) (h_nsent h) (h_tr h).
Definition put_pools (h : heap) (v : nat -> pool) : heap := mkHeap (h_idgen h) (h_idmap h) (h_regd h) (h_mainid h) (h_initc h) (h_cleansig h) (h_ctxs h) (h_loc h) (h_tst h) (h_tobj h) (h_now h) (h_sems h) (h_toks h) (h_ntok h) (h_locks h) (h_mxs h) (h_fsts h) (h_nfs h) (h_prms h) (h_nprm h) (h_hnds h) (h_nhnd h) (h_wcs h) (h_nw h) v (h_npool h) (h_pobj h) (h_sents h) (h_nsent h) (h_tr h).
Definition put_npool (h : heap) (v : nat) : heap := mkHeap (h_idgen h) (h_idmap h) (h_regd h) (h_mainid h) (h_initc h) (h_cleansig h) (h_ctxs h) (h_loc h) (h_tst h) (h_tobj h) (h_now h) (h_sems h) (h_toks h) (h_ntok h) (h_locks h) (h_mxs h) (h_fsts h) (h_nfs h) (h_prms h) (h_nprm h) (h_hnds h) (h_nhnd h) (h_wcs h) (h_nw h) (h_pools h) v (h_pobj h) (h_sents h) (h_nsent h) (h_tr h).
Definition put_pobj (h : heap) (v : nat -> option nat * option nat) : heap := mkHeap (h_idgen h) (h_idmap h) (h_regd h) (h_mainid h) (h_initc h) (h_cleansig h) (h_ctxs h) (h_loc h) (h_tst h) (h_tobj h) (h_now h) (h_sems h) (h_toks h) (h_ntok h) (h_locks h) (h_mxs h) (h_fsts h) (h_nfs h) (h_prms h) (h_nprm h) (h_hnds h) (h_nhnd h) (h_wcs h) (h_nw h) (h_pools h) (h_npool h) v (h_sents h) (h_nsent h) (h_tr h).
Definition put_sents (h : heap) (v : nat -> bool) : heap := mkHeap (h_idgen h) (h_idmap h) (h_regd h) (h_mainid h) (h_initc h) (h_cleansig h) (h_ctxs h) (h_loc h) (h_tst h) (h_tobj h) (h_now h) (h_sems h) (h_toks h) (h_ntok h) (h_locks h) (h_mxs h) (h_fsts h) (h_nfs h) (h_prms h) (h_nprm h) (h_hnds h) (h_nhnd h) (h_wcs h) (h_nw h) (h_pools h) (h_npool h) (h_pobj h) v (h_nsent h) (h_tr h).
Definition put_nsent (h : heap) (v : nat) : heap := mkHeap (h_idgen h) (h_idmap h) (h_regd h) (h_mainid h) (h_initc h) (h_cleansig h) (h_ctxs h) (h_loc h) (h_tst h) (h_tobj h) (h_now h) (h_sems h) (h_toks h) (h_ntok h) (h_locks h) (h_mxs h) (h_fsts h) (h_nfs h) (h_prms h) (h_nprm h) (h_hnds h) (h_nhnd h) (h_wcs h) (h_nw h) (h_pools h) (h_npool h) (h_pobj h) (h_sents h) v (h_tr h).
Definition put_tr (h : heap) (v : list event) : heap := mkHeap (h_idgen h) (h_idmap h) (h_regd h) (h_mainid h) (h_initc h) (h_cleansig h) (h_ctxs h) (h_loc h) (h_tst h) (h_tobj h) (h_now h) (h_sems h) (h_toks h) (h_ntok h) (h_locks h) (h_mxs h) (h_fsts h) (h_nfs h) (h_prms h) (h_nprm h) (h_hnds h) (h_nhnd h) (h_wcs h) (h_nw h) (h_pools h) (h_npool h) (h_pobj h) (h_sents h) (h_nsent h) v.

(** Program start: only the main thread (native id 0) exists; nothing is registered. *)
Definition heap0 : heap :=
  mkHeap 0 (fun _ => None) [] 0 0 false (fun _ => no_ctx) (fun _ => None)
         (fun t => if t =? 0 then TRun false else TNew) (fun _ => (None, 0)) 0
         (fun _ => []) (fun _ => false) 0 (fun _ => None) (fun _ => (false, 0))
         (fun _ => new_fs false) 0 (fun _ => None) 0 (fun _ => (false, None)) 0
         (fun _ => no_w) 0 (fun _ => no_pool) 0 (fun _ => (None, None)) (fun _ => false) 0 [].

Definition emit (h : heap) (e : event) : heap := put_tr h (e :: h_tr h).
Definition upd_ctx (h : heap) (i : id) (c : ctx) : heap := put_ctxs h (upd (h_ctxs h) i c).
Definition upd_fs (h : heap) (p : sid) (f : fstate) : heap := put_fsts h (upd (h_fsts h) p f).
Definition upd_w (h : heap) (w : nat) (x : wctx) : heap := put_wcs h (upd (h_wcs h) w x).
Definition upd_pool (h : heap) (pl : nat) (p : pool) : heap := put_pools h (upd (h_pools h) pl p).

Definition mem (i : nat) (l : list nat) : bool := existsb (Nat.eqb i) l.
Definition rem (i : nat) (l : list nat) : list nat := filter (fun x => negb (x =? i)) l.
Fixpoint rem1 (i : nat) (l : list nat) : list nat :=
  match l with [] => [] | x :: r => if x =? i then r else x :: rem1 i r end.

(** A thread_context object exists while the map or some local variable refers to it. *)
Definition alive (h : heap) (i : id) : bool :=
  mem i (h_regd h) || negb (match cx_refs (h_ctxs h i) with [] => true | _ => false end).
