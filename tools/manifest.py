#!/usr/bin/env python3
"""Writes MANIFEST.json from the table below."""
import json, os
root = os.path.dirname(os.path.dirname(os.path.abspath(__file__)))
C = {}
def claim(pid, status, theorems, note=""):
    C[pid] = dict(property=pid, status=status, theorems=theorems.split(), note=note)

claim("C01", "proved", "C01_ids_never_reused")
claim("C02", "proved", "C02_registration_idempotent C02_one_id_per_thread")
claim("C03", "proved", "C03_registered_meaning C03_get_all_exact")
claim("C04", "proved", "C04_invoke_truthful C11_dispatch")
claim("C05", "proved", "C05_fifo C05_start_oldest")
claim("C06", "proved", "C06_tasks_conserved C06_dropped_exactly")
claim("C07", "proved", "C07_affinity")
claim("C08", "proved", "C08_no_lost_wakeup")
claim("C09", "proved", "C09_count_exact C09_never_negative")
claim("C10", "partial", "C10_count_after_exception_refuted C10_drift C09_count_exact C09_never_negative", "false of the code: a task that throws is counted as pending for ever; the theorem is a concrete execution; C10_drift proves that the count is off by exactly the number of tasks that threw")
claim("C11", "proved", "C11_dispatch")
claim("C12", "proved", "C12_sleeps_only_when_idle C12_wait C12_process C05_start_oldest")
claim("C13", "proved", "C13_exit_sticky C13_notify_for_exit C13_loop_leaves C12_sleeps_only_when_idle")
claim("C14", "proved", "C14_worker_ends C14_asked_stays C13_exit_sticky")
claim("C15", "proved", "C15_init_shutdown")
claim("C16", "proved", "C16_sleep")
claim("C17", "proved", "C17_unattached")
claim("C18", "proved", "C18_notify_takes C19_notify")
claim("C19", "proved", "C19_notify C18_notify_takes")
claim("C20", "proved", "C20_waiting_listed C20_interrupted_wakes C08_no_lost_wakeup C18_notify_takes")
claim("C22", "proved", "C22_cv_wait C22_returns_locked")
claim("C23", "proved", "C23_returns_for_reason C23_tokens C22_cv_wait")
claim("C21", "partial", "C21_nested_wait_refuted C20_waiting_listed", "false of the code; the theorem is a concrete execution; a wait that is not nested this way stays registered (C20)")
claim("C24", "proved", "C24_late_enough C37_wait_returns")
claim("C28", "proved", "C28_setters C28_ready_once C28_outcome_kept")
claim("C29", "proved", "C29_get_returns C37_fut_waits")
claim("C31", "proved", "C31_attached_once C31_launched_once C31_launched_after C31_launched_all C28_setters C38_launch_policies")
claim("C32", "proved", "C32_get_future C32_retrieved_once")
claim("C33", "proved", "C33_invalid_rejected C33_consumed C33_future_calls")
claim("C38", "proved", "C38_launch_policies")
claim("C54", "proved", "C54_jobs_count")
claim("C55", "proved", "C55_thread_calls C55_moves")
claim("C34", "proved", "C34_outcome C34_runs_once C34_ends_begun C34_where C38_launch_policies")
claim("C35", "proved", "C35_no_orphans C35_promises")
claim("C37", "proved", "C37_wait_returns C37_fut_waits")
claim("C25", "proved", "C25_mutual_exclusion C25_owner_holds")
claim("C26", "proved", "C26_mutex_calls")
claim("C58", "proved", "C58_never_stuck", "")
claim("C56", "partial", "C56_refuted C59_only_the_owner", "false of the code: destroying the tasks left in the queue of a thread that unregisters itself can run operations that read its destroyed context; what remains true is C59")
claim("C59", "proved", "C59_only_the_owner")
claim("C57", "partial", "C57_unregistered_share_refuted C25_mutual_exclusion", "false of the code; the theorem is a concrete execution; registered threads are told apart (C25)")
claim("C27", "partial", "C27_unlock_lost_refuted C66_unlock_seen C66_lost_before", "false of the code; the theorem is a concrete execution; C66 proves that this is the only way to lose an unlock")
claim("C30", "partial", "C30_void_get_refuted C29_get_returns", "false of the code; the theorem is a concrete execution; C29 proves that it happens only to a thread that is told to exit or not registered")
claim("C36", "partial", "C36_assign_abandons_refuted C35_promises", "false of the code; the theorem is a concrete execution; C35 proves that assignment is the only way to lose a promise")
claim("C40", "proved", "C40_when_all C40_completes")
claim("C41", "proved", "C41_when_any C41_completes")
claim("C42", "partial", "C42_blocking_continuation_refuted C64_relock", "false of the code; the theorem is a concrete execution; C64 proves that the mutex is locked twice only by a thread that launched a continuation or destroyed a function under it")
claim("C43", "proved", "C43_visit_at")
claim("C39", "partial", "C39_guard_quiet_partial C39_guard_moves_partial C39_swept_refuted", "proved except when a task left in the queue of a thread context that goes away is destroyed under the lock; that case is a concrete execution")
claim("C44", "proved", "C44_ids_unique C44_pool_calls")
claim("C45", "proved", "C45_taken_once C45_run_by_taker")
claim("C46", "proved", "C46_removed_never_taken C46_removed_result C44_pool_calls")
claim("C47", "proved", "C47_check_due C47_check_queued C47_not_asleep C47_workers_first")
claim("C48", "proved", "C48_urgent_first")
claim("C49", "partial", "C49_waiting_queued C49_lowering_refuted", "lowering is false of the code; the theorem is a concrete execution; C70 proves the order in which jobs are taken for jobs that were never lowered")
claim("C50", "partial", "C50_job_waits C50_wait_after_stop_all_refuted", "false of the code after stop_all; the theorem is a concrete execution; C68 proves what holds outside this case")
claim("C51", "partial", "C51_schedule_from_job_refuted C64_relock", "false of the code; the theorem is a concrete execution; C64 proves that the mutex of a pool is locked twice only by a worker of this pool or by a thread that destroyed a function under it")
claim("C52", "proved", "C52_destructor")
claim("C53", "partial", "C53_moved_pool_refuted C67_outlived C67_works C67_race", "false of the code for moved pools; the theorem is a concrete execution; C67 proves it for pools that are never moved")
claim("C60", "proved", "C60_when_calls")
claim("C61", "proved", "C61_explained")
claim("C62", "proved", "C62_misuse")
claim("C63", "proved", "C63_terminate")
claim("C64", "proved", "C64_relock C64_wrong_state")
claim("C65", "proved", "C65_step C65_cause C65_defined")
claim("C66", "proved", "C66_registers C66_unlock_seen C66_lost_before")
claim("C67", "proved", "C67_outlived C67_works C67_race")
claim("C68", "proved", "C68_ready C68_removed C68_wait")
claim("C69", "proved", "C69_get C69_moved")
claim("C70", "proved", "C70_order C70_raised")
claim("C71", "proved", "C71_holder C71_no_deadlock")
claim("C72", "proved", "C72_serves C72_throughout")
claim("C73", "proved", "C73_registers C73_seen C73_wakes C20_interrupted_wakes C08_no_lost_wakeup")
claim("C74", "partial", "C74_nested_wait_refuted C73_wakes", "false of the code: the inner wait takes the registration of the outer one off the list; the theorem is a concrete execution in which a thread sleeps for ever; C73 proves it for waits whose registration was not taken back")

claim("C75", "proved", "C75_captured C75_any_order C75_delivered C75_only_once", "sequential model of capture and apply of its own; constructors that throw are not modelled")

claim("C76", "proved", "C76_overtaken C76_round C72_serves C47_check_queued")

claim("C77", "proved", "C77_started C77_back C77_served C72_serves")
claim("C78", "proved", "C78_cv C78_future")
claim("C79", "partial", "C79_races C79_get C79_get_refuted C79_main_refuted", "false of the code in two places: get of a void future reads the exception without the guard while set_exception writes it (when get stopped waiting because its thread was asked to exit), and main_thread::get_id reads the id that init writes; C79_races proves that there is no other race on these members; the configuration data and the constructor of a pool are not covered")

claim("C80", "proved", "C80_all_back C80_any_back C80_all_served C80_any_served")

claim("C81", "proved", "C81_taken C81_back C81_end C81_wait")

claim("C82", "proved", "C82_jobs C82_functions")

claim("C83", "proved", "C83_where C83_all")
claim("C84", "proved", "C84_job C84_check C84_idle C84_function")
claim("C85", "proved", "C85_root C85_stalled C85_older")
claim("C86", "proved", "C86_unready C86_cause C86_stalled")
claim("C87", "proved", "C87_mutex C87_notified")
claim("C88", "proved", "C88_root C88_hang C88_promise")

json.dump({"claims": [C[k] for k in sorted(C)]}, open(os.path.join(root, "MANIFEST.json"), "w"), indent=1)
