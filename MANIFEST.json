{
 "claims": [
  {
   "property": "C01",
   "status": "proved",
   "theorems": [
    "C01_ids_never_reused"
   ],
   "note": ""
  },
  {
   "property": "C02",
   "status": "proved",
   "theorems": [
    "C02_registration_idempotent",
    "C02_one_id_per_thread"
   ],
   "note": ""
  },
  {
   "property": "C03",
   "status": "proved",
   "theorems": [
    "C03_registered_meaning",
    "C03_get_all_exact"
   ],
   "note": ""
  },
  {
   "property": "C04",
   "status": "proved",
   "theorems": [
    "C04_invoke_truthful",
    "C11_dispatch"
   ],
   "note": ""
  },
  {
   "property": "C05",
   "status": "proved",
   "theorems": [
    "C05_fifo",
    "C05_start_oldest"
   ],
   "note": ""
  },
  {
   "property": "C06",
   "status": "proved",
   "theorems": [
    "C06_tasks_conserved",
    "C06_dropped_exactly"
   ],
   "note": ""
  },
  {
   "property": "C07",
   "status": "proved",
   "theorems": [
    "C07_affinity"
   ],
   "note": ""
  },
  {
   "property": "C08",
   "status": "proved",
   "theorems": [
    "C08_no_lost_wakeup"
   ],
   "note": ""
  },
  {
   "property": "C09",
   "status": "proved",
   "theorems": [
    "C09_count_exact",
    "C09_never_negative"
   ],
   "note": ""
  },
  {
   "property": "C10",
   "status": "partial",
   "theorems": [
    "C10_count_after_exception_refuted",
    "C10_drift",
    "C09_count_exact",
    "C09_never_negative"
   ],
   "note": "false of the code: a task that throws is counted as pending for ever; the theorem is a concrete execution; C10_drift proves that the count is off by exactly the number of tasks that threw"
  },
  {
   "property": "C11",
   "status": "proved",
   "theorems": [
    "C11_dispatch"
   ],
   "note": ""
  },
  {
   "property": "C12",
   "status": "proved",
   "theorems": [
    "C12_sleeps_only_when_idle",
    "C12_wait",
    "C12_process",
    "C05_start_oldest"
   ],
   "note": ""
  },
  {
   "property": "C13",
   "status": "proved",
   "theorems": [
    "C13_exit_sticky",
    "C13_notify_for_exit",
    "C13_loop_leaves",
    "C12_sleeps_only_when_idle"
   ],
   "note": ""
  },
  {
   "property": "C14",
   "status": "proved",
   "theorems": [
    "C14_worker_ends",
    "C14_asked_stays",
    "C13_exit_sticky"
   ],
   "note": ""
  },
  {
   "property": "C15",
   "status": "proved",
   "theorems": [
    "C15_init_shutdown"
   ],
   "note": ""
  },
  {
   "property": "C16",
   "status": "proved",
   "theorems": [
    "C16_sleep"
   ],
   "note": ""
  },
  {
   "property": "C17",
   "status": "proved",
   "theorems": [
    "C17_unattached"
   ],
   "note": ""
  },
  {
   "property": "C18",
   "status": "proved",
   "theorems": [
    "C18_notify_takes",
    "C19_notify"
   ],
   "note": ""
  },
  {
   "property": "C19",
   "status": "proved",
   "theorems": [
    "C19_notify",
    "C18_notify_takes"
   ],
   "note": ""
  },
  {
   "property": "C20",
   "status": "proved",
   "theorems": [
    "C20_waiting_listed",
    "C20_interrupted_wakes",
    "C08_no_lost_wakeup",
    "C18_notify_takes"
   ],
   "note": ""
  },
  {
   "property": "C21",
   "status": "partial",
   "theorems": [
    "C21_nested_wait_refuted",
    "C20_waiting_listed"
   ],
   "note": "false of the code; the theorem is a concrete execution; a wait that is not nested this way stays registered (C20)"
  },
  {
   "property": "C22",
   "status": "proved",
   "theorems": [
    "C22_cv_wait",
    "C22_returns_locked"
   ],
   "note": ""
  },
  {
   "property": "C23",
   "status": "proved",
   "theorems": [
    "C23_returns_for_reason",
    "C23_tokens",
    "C22_cv_wait"
   ],
   "note": ""
  },
  {
   "property": "C24",
   "status": "proved",
   "theorems": [
    "C24_late_enough",
    "C37_wait_returns"
   ],
   "note": ""
  },
  {
   "property": "C25",
   "status": "proved",
   "theorems": [
    "C25_mutual_exclusion",
    "C25_owner_holds"
   ],
   "note": ""
  },
  {
   "property": "C26",
   "status": "proved",
   "theorems": [
    "C26_mutex_calls"
   ],
   "note": ""
  },
  {
   "property": "C27",
   "status": "partial",
   "theorems": [
    "C27_unlock_lost_refuted",
    "C66_unlock_seen",
    "C66_lost_before"
   ],
   "note": "false of the code; the theorem is a concrete execution; C66 proves that this is the only way to lose an unlock"
  },
  {
   "property": "C28",
   "status": "proved",
   "theorems": [
    "C28_setters",
    "C28_ready_once",
    "C28_outcome_kept"
   ],
   "note": ""
  },
  {
   "property": "C29",
   "status": "proved",
   "theorems": [
    "C29_get_returns",
    "C37_fut_waits"
   ],
   "note": ""
  },
  {
   "property": "C30",
   "status": "partial",
   "theorems": [
    "C30_void_get_refuted",
    "C29_get_returns"
   ],
   "note": "false of the code; the theorem is a concrete execution; C29 proves that it happens only to a thread that is told to exit or not registered"
  },
  {
   "property": "C31",
   "status": "proved",
   "theorems": [
    "C31_attached_once",
    "C31_launched_once",
    "C31_launched_after",
    "C31_launched_all",
    "C28_setters",
    "C38_launch_policies"
   ],
   "note": ""
  },
  {
   "property": "C32",
   "status": "proved",
   "theorems": [
    "C32_get_future",
    "C32_retrieved_once"
   ],
   "note": ""
  },
  {
   "property": "C33",
   "status": "proved",
   "theorems": [
    "C33_invalid_rejected",
    "C33_consumed",
    "C33_future_calls"
   ],
   "note": ""
  },
  {
   "property": "C34",
   "status": "proved",
   "theorems": [
    "C34_outcome",
    "C34_runs_once",
    "C34_ends_begun",
    "C34_where",
    "C38_launch_policies"
   ],
   "note": ""
  },
  {
   "property": "C35",
   "status": "proved",
   "theorems": [
    "C35_no_orphans",
    "C35_promises"
   ],
   "note": ""
  },
  {
   "property": "C36",
   "status": "partial",
   "theorems": [
    "C36_assign_abandons_refuted",
    "C35_promises"
   ],
   "note": "false of the code; the theorem is a concrete execution; C35 proves that assignment is the only way to lose a promise"
  },
  {
   "property": "C37",
   "status": "proved",
   "theorems": [
    "C37_wait_returns",
    "C37_fut_waits"
   ],
   "note": ""
  },
  {
   "property": "C38",
   "status": "proved",
   "theorems": [
    "C38_launch_policies"
   ],
   "note": ""
  },
  {
   "property": "C39",
   "status": "partial",
   "theorems": [
    "C39_guard_quiet_partial",
    "C39_guard_moves_partial",
    "C39_swept_refuted"
   ],
   "note": "proved except when a task left in the queue of a thread context that goes away is destroyed under the lock; that case is a concrete execution"
  },
  {
   "property": "C40",
   "status": "proved",
   "theorems": [
    "C40_when_all",
    "C40_completes"
   ],
   "note": ""
  },
  {
   "property": "C41",
   "status": "proved",
   "theorems": [
    "C41_when_any",
    "C41_completes"
   ],
   "note": ""
  },
  {
   "property": "C42",
   "status": "partial",
   "theorems": [
    "C42_blocking_continuation_refuted",
    "C64_relock"
   ],
   "note": "false of the code; the theorem is a concrete execution; C64 proves that the mutex is locked twice only by a thread that launched a continuation or destroyed a function under it"
  },
  {
   "property": "C43",
   "status": "proved",
   "theorems": [
    "C43_visit_at"
   ],
   "note": ""
  },
  {
   "property": "C44",
   "status": "proved",
   "theorems": [
    "C44_ids_unique",
    "C44_pool_calls"
   ],
   "note": ""
  },
  {
   "property": "C45",
   "status": "proved",
   "theorems": [
    "C45_taken_once",
    "C45_run_by_taker"
   ],
   "note": ""
  },
  {
   "property": "C46",
   "status": "proved",
   "theorems": [
    "C46_removed_never_taken",
    "C46_removed_result",
    "C44_pool_calls"
   ],
   "note": ""
  },
  {
   "property": "C47",
   "status": "proved",
   "theorems": [
    "C47_check_due",
    "C47_check_queued",
    "C47_not_asleep",
    "C47_workers_first"
   ],
   "note": ""
  },
  {
   "property": "C48",
   "status": "proved",
   "theorems": [
    "C48_urgent_first"
   ],
   "note": ""
  },
  {
   "property": "C49",
   "status": "partial",
   "theorems": [
    "C49_waiting_queued",
    "C49_lowering_refuted"
   ],
   "note": "lowering is false of the code; the theorem is a concrete execution; C70 proves the order in which jobs are taken for jobs that were never lowered"
  },
  {
   "property": "C50",
   "status": "partial",
   "theorems": [
    "C50_job_waits",
    "C50_wait_after_stop_all_refuted"
   ],
   "note": "false of the code after stop_all; the theorem is a concrete execution; C68 proves what holds outside this case"
  },
  {
   "property": "C51",
   "status": "partial",
   "theorems": [
    "C51_schedule_from_job_refuted",
    "C64_relock"
   ],
   "note": "false of the code; the theorem is a concrete execution; C64 proves that the mutex of a pool is locked twice only by a worker of this pool or by a thread that destroyed a function under it"
  },
  {
   "property": "C52",
   "status": "proved",
   "theorems": [
    "C52_destructor"
   ],
   "note": ""
  },
  {
   "property": "C53",
   "status": "partial",
   "theorems": [
    "C53_moved_pool_refuted",
    "C67_outlived",
    "C67_works",
    "C67_race"
   ],
   "note": "false of the code for moved pools; the theorem is a concrete execution; C67 proves it for pools that are never moved"
  },
  {
   "property": "C54",
   "status": "proved",
   "theorems": [
    "C54_jobs_count"
   ],
   "note": ""
  },
  {
   "property": "C55",
   "status": "proved",
   "theorems": [
    "C55_thread_calls",
    "C55_moves"
   ],
   "note": ""
  },
  {
   "property": "C56",
   "status": "partial",
   "theorems": [
    "C56_refuted",
    "C59_only_the_owner"
   ],
   "note": "false of the code: destroying the tasks left in the queue of a thread that unregisters itself can run operations that read its destroyed context; what remains true is C59"
  },
  {
   "property": "C57",
   "status": "partial",
   "theorems": [
    "C57_unregistered_share_refuted",
    "C25_mutual_exclusion"
   ],
   "note": "false of the code; the theorem is a concrete execution; registered threads are told apart (C25)"
  },
  {
   "property": "C58",
   "status": "proved",
   "theorems": [
    "C58_never_stuck"
   ],
   "note": ""
  },
  {
   "property": "C59",
   "status": "proved",
   "theorems": [
    "C59_only_the_owner"
   ],
   "note": ""
  },
  {
   "property": "C60",
   "status": "proved",
   "theorems": [
    "C60_when_calls"
   ],
   "note": ""
  },
  {
   "property": "C61",
   "status": "proved",
   "theorems": [
    "C61_explained"
   ],
   "note": ""
  },
  {
   "property": "C62",
   "status": "proved",
   "theorems": [
    "C62_misuse"
   ],
   "note": ""
  },
  {
   "property": "C63",
   "status": "proved",
   "theorems": [
    "C63_terminate"
   ],
   "note": ""
  },
  {
   "property": "C64",
   "status": "proved",
   "theorems": [
    "C64_relock",
    "C64_wrong_state"
   ],
   "note": ""
  },
  {
   "property": "C65",
   "status": "proved",
   "theorems": [
    "C65_step",
    "C65_cause",
    "C65_defined"
   ],
   "note": ""
  },
  {
   "property": "C66",
   "status": "proved",
   "theorems": [
    "C66_registers",
    "C66_unlock_seen",
    "C66_lost_before"
   ],
   "note": ""
  },
  {
   "property": "C67",
   "status": "proved",
   "theorems": [
    "C67_outlived",
    "C67_works",
    "C67_race"
   ],
   "note": ""
  },
  {
   "property": "C68",
   "status": "proved",
   "theorems": [
    "C68_ready",
    "C68_removed",
    "C68_wait"
   ],
   "note": ""
  },
  {
   "property": "C69",
   "status": "proved",
   "theorems": [
    "C69_get",
    "C69_moved"
   ],
   "note": ""
  },
  {
   "property": "C70",
   "status": "proved",
   "theorems": [
    "C70_order",
    "C70_raised"
   ],
   "note": ""
  },
  {
   "property": "C71",
   "status": "proved",
   "theorems": [
    "C71_holder",
    "C71_no_deadlock"
   ],
   "note": ""
  },
  {
   "property": "C72",
   "status": "proved",
   "theorems": [
    "C72_serves",
    "C72_throughout"
   ],
   "note": ""
  },
  {
   "property": "C73",
   "status": "proved",
   "theorems": [
    "C73_registers",
    "C73_seen",
    "C73_wakes",
    "C20_interrupted_wakes",
    "C08_no_lost_wakeup"
   ],
   "note": ""
  },
  {
   "property": "C74",
   "status": "partial",
   "theorems": [
    "C74_nested_wait_refuted",
    "C73_wakes"
   ],
   "note": "false of the code: the inner wait takes the registration of the outer one off the list; the theorem is a concrete execution in which a thread sleeps for ever; C73 proves it for waits whose registration was not taken back"
  },
  {
   "property": "C75",
   "status": "proved",
   "theorems": [
    "C75_captured",
    "C75_any_order",
    "C75_delivered",
    "C75_only_once"
   ],
   "note": "sequential model of capture and apply of its own; constructors that throw are not modelled"
  },
  {
   "property": "C76",
   "status": "proved",
   "theorems": [
    "C76_overtaken",
    "C76_round",
    "C72_serves",
    "C47_check_queued"
   ],
   "note": ""
  },
  {
   "property": "C77",
   "status": "proved",
   "theorems": [
    "C77_started",
    "C77_back",
    "C77_served",
    "C72_serves"
   ],
   "note": ""
  },
  {
   "property": "C78",
   "status": "proved",
   "theorems": [
    "C78_cv",
    "C78_future"
   ],
   "note": ""
  },
  {
   "property": "C79",
   "status": "partial",
   "theorems": [
    "C79_races",
    "C79_get",
    "C79_get_refuted",
    "C79_main_refuted"
   ],
   "note": "false of the code in two places: get of a void future reads the exception without the guard while set_exception writes it (when get stopped waiting because its thread was asked to exit), and main_thread::get_id reads the id that init writes; C79_races proves that there is no other race on these members; the configuration data and the constructor of a pool are not covered"
  },
  {
   "property": "C80",
   "status": "proved",
   "theorems": [
    "C80_all_back",
    "C80_any_back",
    "C80_all_served",
    "C80_any_served"
   ],
   "note": ""
  },
  {
   "property": "C81",
   "status": "proved",
   "theorems": [
    "C81_taken",
    "C81_back",
    "C81_end",
    "C81_wait"
   ],
   "note": ""
  },
  {
   "property": "C82",
   "status": "proved",
   "theorems": [
    "C82_jobs",
    "C82_functions"
   ],
   "note": ""
  },
  {
   "property": "C83",
   "status": "proved",
   "theorems": [
    "C83_where",
    "C83_all"
   ],
   "note": ""
  },
  {
   "property": "C84",
   "status": "proved",
   "theorems": [
    "C84_job",
    "C84_check",
    "C84_idle",
    "C84_function"
   ],
   "note": ""
  },
  {
   "property": "C85",
   "status": "proved",
   "theorems": [
    "C85_root",
    "C85_stalled",
    "C85_older"
   ],
   "note": ""
  },
  {
   "property": "C86",
   "status": "proved",
   "theorems": [
    "C86_unready",
    "C86_cause",
    "C86_stalled"
   ],
   "note": ""
  },
  {
   "property": "C87",
   "status": "proved",
   "theorems": [
    "C87_mutex",
    "C87_notified"
   ],
   "note": ""
  },
  {
   "property": "C88",
   "status": "proved",
   "theorems": [
    "C88_root",
    "C88_hang",
    "C88_promise"
   ],
   "note": ""
  }
 ]
}