{
 "claims": [
  {
   "property": "C01",
   "status": "proved",
   "theorems": [
    "C01_mutex_mutual_exclusion",
    "C01_mutex_waiters_exact",
    "C01_mutex_flag_exact"
   ],
   "note": "all interleavings at atomic-operation granularity, any number of coroutines, bag queue, spurious empty allowed"
  },
  {
   "property": "C02",
   "status": "partial",
   "theorems": [
    "C02_mutex_no_lost_wakeup_refuted",
    "C02_mutex_no_lost_wakeup_partial",
    "C02_mutex_next_release_recovers",
    "C02_every_late_waiter_strands_refuted"
   ],
   "note": "full statement refuted (waiter enqueues after the last release looked at the queue); partial: schedules that never hit that window; stranded waiters are recovered by the next lock/unlock. C02_every_late_waiter_strands_refuted: for every history, a coroutine that reaches its enqueue while nobody owns, is handed or releases the mutex suspends on the free mutex until somebody new asks for it."
  },
  {
   "property": "C03",
   "status": "proved",
   "theorems": [
    "C03_locks_released_exactly_once",
    "C03_locks_never_double_released",
    "C03_locks_outstanding_exact",
    "C03_unlock_only_if_owned",
    "C03_unlock_idempotent",
    "C03_move_ctor_transfers",
    "C03_move_assign_transfers",
    "C03_lock_through_handle"
   ],
   "note": "all handle programs, single and shared handles"
  },
  {
   "property": "C04",
   "status": "partial",
   "theorems": [
    "C04_reader_and_writer_together_refuted",
    "C04_two_writers_refuted",
    "C04_reentrant_writer_admits_readers_refuted",
    "C04_reentrant_alone_partial",
    "C04_rw_exclusion_partial",
    "C04_asserts_hold_partial",
    "C04_assert_fails_refuted",
    "C04_rw_exclusion_with_waiting_readers_partial"
   ],
   "note": "refuted three ways; proved for all histories, waiting readers included, that do not hit one of the two defects (defects_not_hit), and for all histories in which no acquire_shared() has to wait"
  },
  {
   "property": "C05",
   "status": "partial",
   "theorems": [
    "C05_writers_blocked_forever_refuted",
    "C05_second_reader_stranded_refuted",
    "C05_rw_progress_partial"
   ],
   "note": "refuted (writers blocked forever, second reader stranded); holds for histories in which no acquire_shared() has to wait"
  },
  {
   "property": "C06",
   "status": "proved",
   "theorems": [
    "C06_wait_group_refines_spec"
   ],
   "note": "refinement to an abstract automaton for documented use (1 <= done amount <= count, no overflow); done(0): C92"
  },
  {
   "property": "C07",
   "status": "partial",
   "theorems": [
    "C07_done_many_strands_refuted",
    "C07_wait_race_strands_refuted",
    "C07_waiters_released_partial",
    "C07_every_done_of_many_strands_refuted",
    "C07_every_late_waiter_strands_refuted"
   ],
   "note": "refuted twice (done(n>1) to zero wakes nobody; check/enqueue race); partial theorem for the other schedules. How false: C07_every_done_of_many_strands_refuted (every history, every done(n), n > 1, that reaches zero with nobody inside done(): no waiter is resumed before the next done()) and C07_every_late_waiter_strands_refuted (every waiter that enqueues at counter zero with nobody inside done())."
  },
  {
   "property": "C08",
   "status": "proved",
   "theorems": [
    "C08_guard_balanced",
    "C08_guard_never_over_undone"
   ],
   "note": "all programs; assignment over a live guard: C80"
  },
  {
   "property": "C09",
   "status": "proved",
   "theorems": [
    "C09_delivered_faithfully_at_most_once",
    "C09_no_lost_wakeup",
    "C09_not_resumed_before_fulfilment",
    "C09_set_never_waits"
   ],
   "note": "one promise, one future: all schedules incl. spurious wake-ups; safety part for any number of futures; two futures: C93"
  },
  {
   "property": "C10",
   "status": "proved",
   "theorems": [
    "C10_get_nonblk_exact",
    "C10_ready_exact"
   ],
   "note": "exact function of the history of calls, for every history; blocking get() is C69"
  },
  {
   "property": "C11",
   "status": "proved",
   "theorems": [
    "C11_timer_exact",
    "C11_registered_threads_safe",
    "C11_sleep_until_duration"
   ],
   "note": "every history of any number of registered threads, every standard-conforming heap; after stop(): C67; other threads: C68"
  },
  {
   "property": "C12",
   "status": "partial",
   "theorems": [
    "C12_across_polls_partial",
    "C12_descending_refuted",
    "C12_order_refuted"
   ],
   "note": "refuted: within a poll tasks are handed over in non-increasing deadline order, for every heap implementation. Also proved: across polls the order of deadlines is kept (C12_across_polls_partial)."
  },
  {
   "property": "C13",
   "status": "proved",
   "theorems": [
    "C13_max_sleep_exact"
   ],
   "note": "every reachable state; after stop(): C67"
  },
  {
   "property": "C14",
   "status": "proved",
   "theorems": [
    "C14_conservation",
    "C14_quiescent_dequeue_complete",
    "C14_size",
    "C14_proper_use_no_ub"
   ],
   "note": "all interleavings of registered threads; others: C94"
  },
  {
   "property": "C15",
   "status": "proved",
   "theorems": [
    "C15_executed_at_most_once",
    "C15_graceful_stop_executes_everything",
    "C15_workers_leave"
   ],
   "note": "all interleavings of worker loop at atomic-access granularity, non-atomic emptiness scan included"
  },
  {
   "property": "C16",
   "status": "partial",
   "theorems": [
    "C16_accepted_after_stop_refuted",
    "C16_race_with_quick_stop_refuted",
    "C16_refused_after_quick_stop_partial"
   ],
   "note": "refuted: enqueue after a graceful stop() is accepted and never executed; also race with quick_stop()"
  },
  {
   "property": "C17",
   "status": "proved",
   "theorems": [
    "C17_resumed_once_per_suspension",
    "C17_no_ub",
    "C17_started_and_destroyed_at_most_once",
    "C17_exactly_one_owner",
    "C17_no_leak"
   ],
   "note": "all finite programs within the documented use (a throwing await_suspend and quick_stop are C50/C51); misuse is C70"
  },
  {
   "property": "C18",
   "status": "proved",
   "theorems": [
    "C18_at_most_one_gets_it",
    "C18_exactly_one_gets_it",
    "C18_winner_exists",
    "C18_one_owner"
   ],
   "note": "any number of callers, all interleavings of compare-exchange and move"
  },
  {
   "property": "C19",
   "status": "proved",
   "theorems": [
    "C19_values_in_order",
    "C19_no_assertion_fails",
    "C19_on_demand",
    "C19_call_returns",
    "C19_every_call_answered"
   ],
   "note": "all interleavings of one consumer and the generator, all value lists; bodies that throw: C71"
  },
  {
   "property": "C20",
   "status": "proved",
   "theorems": [
    "C20_unique",
    "C20_no_equal_neighbours"
   ],
   "note": "for every sequence and every binary predicate (runs are compared with their first element)"
  },
  {
   "property": "C21",
   "status": "proved",
   "theorems": [
    "C21_interleaving",
    "C21_permutation",
    "C21_sorted"
   ],
   "note": "for every pair of value lists and every comparator; ties: C72"
  },
  {
   "property": "C22",
   "status": "proved",
   "theorems": [
    "C22_resumed_once_with_its_own_results",
    "C22_not_resumed_means_not_complete",
    "C22_completed_batches_are_resumed"
   ],
   "note": "any number of threads/rings, coroutines, batches; kernel takes entries at any submit and completes in any order; hypothesis: each batch executed once, not touched while executing, fits the submission queue (C58/C59 cover the rest)"
  },
  {
   "property": "C23",
   "status": "proved",
   "theorems": [
    "C23_submission_order",
    "C23_handed_to_the_ring"
   ],
   "note": "all call sequences on a new batch before its first execution; reuse after execution is C58"
  },
  {
   "property": "C24",
   "status": "partial",
   "theorems": [
    "C24_slots_in_order_partial",
    "C24_slots_in_order_refuted",
    "C24_status_in_order_partial",
    "C24_status_without_deadline"
   ],
   "note": "refuted: slots are in completion order, and is_timeout/single-operation results then misreport; partial: holds when the kernel completes the batch's entries in submission order"
  },
  {
   "property": "C25",
   "status": "proved",
   "theorems": [
    "C25_success_iff",
    "C25_nbytes",
    "C25_get_throws_iff_error"
   ],
   "note": "for every 32-bit kernel answer but INT_MIN (never returned by the kernel) and every errno"
  },
  {
   "property": "C26",
   "status": "proved",
   "theorems": [
    "C26_append_all_exact",
    "C26_append_all_terminates"
   ],
   "note": "for every buffer and kernel; plain files, zero-byte answers and 2^32-byte buffers: C82"
  },
  {
   "property": "C27",
   "status": "proved",
   "theorems": [
    "C27_fill_waits_only_for_bytes",
    "C27_fill_prefix",
    "C27_read_file_section",
    "C27_throwing_overloads"
   ],
   "note": "all kernel behaviours (short reads, errors, timeouts, end of file); exceptions and the throwing overloads: C83"
  },
  {
   "property": "C28",
   "status": "partial",
   "theorems": [
    "C28_complete_write_partial",
    "C28_what_is_written",
    "C28_short_write_refuted",
    "C28_counter_wraps_refuted",
    "C28_constructor_refuted"
   ],
   "note": "refuted for short writes, counter wrap and the constructor; holds when a write is complete"
  },
  {
   "property": "C29",
   "status": "proved",
   "theorems": [
    "C29_and_then_value",
    "C29_and_then_error",
    "C29_and_then_assoc",
    "C29_identity_laws",
    "C29_accessors",
    "C29_has_value_iff",
    "C29_object_keeps_its_state",
    "C29_void_and_then",
    "C29_void_assoc"
   ],
   "note": "for every effectful, possibly throwing function; also the void specialisation"
  },
  {
   "property": "C30",
   "status": "proved",
   "theorems": [
    "C30_dir_mutex_exclusive"
   ],
   "note": "for schedules without destruction, as the statement says; destruction: C95"
  },
  {
   "property": "C31",
   "status": "partial",
   "theorems": [
    "C31_dir_mutex_progress_refuted",
    "C31_dir_mutex_orphan_is_permanent_refuted",
    "C31_dir_mutex_progress_partial"
   ],
   "note": "False of the code: a poller whose waiter was already served creates the lock file for nobody, and the lock is lost for ever (refuted theorem, permanence proved from every reachable orphan state). Partial: in schedules where a poller that gets the file finds a waiter, the file always has an owner and a live poller can serve the queue."
  },
  {
   "property": "C32",
   "status": "proved",
   "theorems": [
    "C32_prepared_exactly_once",
    "C32_no_ub_while_workers_live"
   ],
   "note": "every interleaving; after a worker ended: C74"
  },
  {
   "property": "C33",
   "status": "proved",
   "theorems": [
    "C33_polls_every_loop",
    "C33_user_loops",
    "C33_sleep_is_minimum",
    "C33_user_loops_sleep",
    "C33_refused_after_stop",
    "C33_accepted_until_stop"
   ],
   "note": "every interleaving of the workers of one event loop; two event loops / quick_stop: C75"
  },
  {
   "property": "C34",
   "status": "proved",
   "theorems": [
    "C34_even",
    "C34_even_window",
    "C34_complete"
   ],
   "note": "all callers together and every window of dispatches, every start value of the shared counter, up to the wrap of the 64-bit counter; t >= 1 workers"
  },
  {
   "property": "C35",
   "status": "proved",
   "theorems": [
    "C35_results_in_range_order",
    "C35_can_always_finish",
    "C35_always_ends",
    "C35_for_each_once"
   ],
   "note": "every completion order; elements after an exception: C76; parallelism: C52"
  },
  {
   "property": "C36",
   "status": "proved",
   "theorems": [
    "C36_address_and_port",
    "C36_no_port_rejected",
    "C36_address_is_what_precedes_the_last_colon"
   ],
   "note": "for every address string and every decimal rendering of a port; ip_address::make (toolpex) is an arbitrary function"
  },
  {
   "property": "C37",
   "status": "proved",
   "theorems": [
    "C37_each_client_handed_once"
   ],
   "note": "all schedules, any number of accept loops"
  },
  {
   "property": "C38",
   "status": "proved",
   "theorems": [
    "C38_result_exact",
    "C38_returns_in_time",
    "C38_polls_bounded"
   ],
   "note": "all queue-length/error sequences, all clocks; the bound on lateness is relative to the timer's lateness; overflow of the deadline is C65"
  },
  {
   "property": "C39",
   "status": "proved",
   "theorems": [
    "C39_length_prefix_round_trips",
    "C39_incomplete_message_is_not_sent",
    "C39_received_intact",
    "C39_receiver_outcome",
    "C39_whole_frame_is_parsed",
    "C39_size_of_any_frame",
    "C39_stream_of_messages"
   ],
   "note": "every message, fragmentation and continuation; failure reporting: C88. The header has an unbalanced #endif and cannot be compiled as it is."
  },
  {
   "property": "C40",
   "status": "proved",
   "theorems": [
    "C40_error_code_kept",
    "C40_int_code_kept",
    "C40_int_category"
   ],
   "note": "all classes but these two, all error codes; the two: C81"
  },
  {
   "property": "C41",
   "status": "proved",
   "theorems": [
    "C41_fifo",
    "C41_dequeue_none_iff_empty",
    "C41_local_scheduler_drains"
   ],
   "note": "FIFO for all operation sequences; single-threaded scheduler: all spawn trees with throws, by induction on the tree"
  },
  {
   "property": "C42",
   "status": "proved",
   "theorems": [
    "C42_idle_time_bounded",
    "C42_no_idling_while_outstanding",
    "C42_back_off",
    "C42_polls_drive_the_back_off",
    "C42_idle_time"
   ],
   "note": "every reachable state before a graceful stop, 32-bit counter"
  },
  {
   "property": "C43",
   "status": "proved",
   "theorems": [
    "C43_cancel_first",
    "C43_batch_cancel_all"
   ],
   "note": "for every set of pending operations"
  },
  {
   "property": "C44",
   "status": "proved",
   "theorems": [
    "C44_shutdown_once",
    "C44_stop_returns_after_workers_ended",
    "C44_not_terminated",
    "C44_every_call_returns_once"
   ],
   "note": "all schedules; stop() on a worker thread: C78"
  },
  {
   "property": "C45",
   "status": "partial",
   "theorems": [
    "C45_resumed_without_zero_refuted",
    "C45_woken_at_zero_partial"
   ],
   "note": "refuted under reuse while draining; holds if no add() happens while a done() drains"
  },
  {
   "property": "C46",
   "status": "partial",
   "theorems": [
    "C46_try_acquire_never_succeeds_refuted",
    "C46_try_acquire_never_waits_partial"
   ],
   "note": "refuted: try_acquire never succeeds; proved: it never waits, never succeeds while held"
  },
  {
   "property": "C47",
   "status": "partial",
   "theorems": [
    "C47_only_where_a_reader_waits_partial",
    "C47_acquire_shared_use_after_free_refuted"
   ],
   "note": "refuted by a schedule; holds when no acquire_shared() has to wait (C04_asserts_hold_partial). Also proved: the late access happens only in executions where an acquire_shared() waits (C47_only_where_a_reader_waits_partial)."
  },
  {
   "property": "C48",
   "status": "proved",
   "theorems": [
    "C48_closed_exactly_once"
   ],
   "note": "all programs with one get_fd/get_client; otherwise C90"
  },
  {
   "property": "C49",
   "status": "partial",
   "theorems": [
    "C49_eof_spins_refuted",
    "C49_returns_partial"
   ],
   "note": "refuted: zero-byte answers are retried forever; returns if every successful answer has at least a byte"
  },
  {
   "property": "C50",
   "status": "partial",
   "theorems": [
    "C50_await_on_stopping_loop_refuted"
   ],
   "note": "refuted: the by-value handle destroys the frame while the exception leaves await_suspend, the exception is then rethrown in the destroyed frame"
  },
  {
   "property": "C51",
   "status": "partial",
   "theorems": [
    "C51_every_start_after_quick_stop_refuted",
    "C51_wake_up_after_quick_stop_refuted",
    "C51_run_after_quick_stop_refuted",
    "C51_no_terminate_without_quick_stop_partial"
   ],
   "note": "refuted: enqueue_no_future throws inside noexcept task_scheduler::enqueue; without quick_stop no terminate (partial theorem) C51_every_start_after_quick_stop_refuted: for every history with a quick_stop() in it and every task object that still owns its unstarted coroutine and its future, run(), run_and_get_future() and co_await end the process."
  },
  {
   "property": "C52",
   "status": "partial",
   "theorems": [
    "C52_for_each_is_sequential_refuted",
    "C52_co_await_all_is_parallel_partial"
   ],
   "note": "refuted: the transform view is lazy, an element is launched only after the previous one completed; co_await_all over futures obtained beforehand is parallel"
  },
  {
   "property": "C53",
   "status": "partial",
   "theorems": [
    "C53_uninterrupted_call_partial",
    "C53_concurrent_calls_uneven_refuted"
   ],
   "note": "refuted for concurrent calls; an uninterrupted call is even (C34_even_window). Also proved for every execution: an uninterrupted call spreads its k draws evenly over any window length (C53_uninterrupted_call_partial)."
  },
  {
   "property": "C54",
   "status": "proved",
   "theorems": [
    "C54_destroyed_exactly_once",
    "C54_moved_from_use_undefined"
   ],
   "note": "all sequences in which moved-from wrappers are not used"
  },
  {
   "property": "C55",
   "status": "proved",
   "theorems": [
    "C55_registered_are_stopped"
   ],
   "note": "exact characterisation over all histories; loops added after stop(): C84"
  },
  {
   "property": "C56",
   "status": "proved",
   "theorems": [
    "C56_destructor_destroys_suspended",
    "C56_body_does_not_outlive_the_object"
   ],
   "note": "every reachable state"
  },
  {
   "property": "C57",
   "status": "proved",
   "theorems": [
    "C57_no_leak"
   ],
   "note": "all programs; assignment over a live generator: C86"
  },
  {
   "property": "C58",
   "status": "partial",
   "theorems": [
    "C58_again_never_resumes_refuted",
    "C58_clear_refuted",
    "C58_second_execution_never_resumes_refuted",
    "C58_second_execution_resumes_early_refuted"
   ],
   "note": "refuted in all forms (UB after clear with a deadline, never resumed, resumed early); C22 is what holds for single-use batches For every history: a batch with at least as many results as entries that is executed again is not resumed for that execution as long as no further call is made on it (C58_again_never_resumes_refuted)."
  },
  {
   "property": "C59",
   "status": "partial",
   "theorems": [
    "C59_large_batch_refuted",
    "C59_batch_that_fits_partial"
   ],
   "note": "refuted for every batch of more than 1024 entries; batches that fit are accepted"
  },
  {
   "property": "C60",
   "status": "partial",
   "theorems": [
    "C60_stop_reaches_every_thread_refuted",
    "C60_own_thread_partial"
   ],
   "note": "refuted: only the calling thread's ring is stopped; on that thread it takes effect"
  },
  {
   "property": "C61",
   "status": "partial",
   "theorems": [
    "C61_dir_mutex_unlock_returns_refuted",
    "C61_dir_mutex_unlock_returns_partial"
   ],
   "note": "False of the code for every pool size n: n simultaneous unlocks block all workers for ever (refuted theorem). Partial: with at least one worker outside unlock(), each unlock in progress can complete."
  },
  {
   "property": "C62",
   "status": "partial",
   "theorems": [
    "C62_port_out_of_range_refuted",
    "C62_malformed_port_refuted",
    "C62_blanks_accepted_refuted",
    "C62_what_is_rejected_partial"
   ],
   "note": "False of the code for all of them (refuted theorems quantify over all such strings): atoi plus a cast to 16 bits; values beyond int are undefined behaviour. Only the missing colon is rejected (C36). What is rejected where the behaviour is defined: exactly the literals without a colon and those whose address is refused (C62_what_is_rejected_partial)."
  },
  {
   "property": "C63",
   "status": "partial",
   "theorems": [
    "C63_moved_before_start_partial",
    "C63_loops_do_not_notice_partial",
    "C63_move_after_start_refuted"
   ],
   "note": "False of the code from every reachable started state (the wait group is not moved, and the loops keep using the old object). Moving before start() is covered by C37's partial theorem. What holds: moves before start() change nothing (C63_moved_before_start_partial), and the accept loops, the clients handed over and the stop flag do not depend on moves at any time (C63_loops_do_not_notice_partial)."
  },
  {
   "property": "C64",
   "status": "proved",
   "theorems": [
    "C64_loops_end_after_stop",
    "C64_loops_survive_errors"
   ],
   "note": "at most three steps per loop after stop(); loops_idle implies all ended"
  },
  {
   "property": "C65",
   "status": "proved",
   "theorems": [
    "C65_deadline_exact"
   ],
   "note": "all overloads, all clocks; milliseconds::max() and overflow: C87"
  },
  {
   "property": "C66",
   "status": "proved",
   "theorems": [
    "C66_mutex_try_acquire_decides_at_once",
    "C66_mutex_acquire_owns_or_waits",
    "C66_mutex_unlock_never_waits"
   ],
   "note": "every reachable state; try_acquire may also be refused while a release is in its wake-up phase although nobody owns the mutex (stated, with an example)"
  },
  {
   "property": "C67",
   "status": "partial",
   "theorems": [
    "C67_sleepers_at_stop_lost_refuted",
    "C67_idle_time_after_stop_refuted",
    "C67_everybody_is_lost_refuted",
    "C67_idle_time_infinite_refuted",
    "C67_poll_under_way_partial"
   ],
   "note": "False of the code: no continuation ever resumes a sleeper pending at stop(); the idle time becomes infinite (both refuted theorems quantify over all continuations / concrete reachable state). After any history with a stop and no poll under way nobody is ever resumed and every thread is told that nothing is pending (C67_everybody_is_lost_refuted, C67_idle_time_infinite_refuted). What holds: a poll under way when stop() comes still resumes all the sleepers of its thread that are due (C67_poll_under_way_partial)."
  },
  {
   "property": "C68",
   "status": "partial",
   "theorems": [
    "C68_foreign_thread_refuted"
   ],
   "note": "False of the code: null pointer dereference, in every state (refuted)."
  },
  {
   "property": "C69",
   "status": "partial",
   "theorems": [
    "C69_ready_then_get_blocks_refuted",
    "C69_spurious_wakeup_refuted",
    "C69_blocking_get_partial"
   ],
   "note": "False of the code twice: get() after a ready() that answered true blocks for ever; a spurious wake-up makes get() throw. Partial: without either, get() returns exactly the stored result."
  },
  {
   "property": "C70",
   "status": "partial",
   "theorems": [
    "C70_run_twice_refuted",
    "C70_run_moved_from_refuted",
    "C70_call_moved_from_refuted",
    "C70_used_up_task_reports",
    "C70_await_without_future_reports",
    "C70_run_eager_harmless",
    "C70_unused_task_works"
   ],
   "note": "False of the code: undefined behaviour in all three cases (refuted)."
  },
  {
   "property": "C71",
   "status": "partial",
   "theorems": [
    "C71_values_before_the_exception_partial",
    "C71_exception_refuted"
   ],
   "note": "False of the code: the consumer stays suspended for ever (refuted for all schedules). Also proved: up to the exception the consumer gets exactly the yielded values in order (C71_values_before_the_exception_partial)."
  },
  {
   "property": "C72",
   "status": "partial",
   "theorems": [
    "C72_without_ties_partial",
    "C72_ties_refuted"
   ],
   "note": "False of the code: merge(l,r) is std::merge(r,l) for all inputs (theorem). Also proved: without equivalent elements across the two inputs the result is std::merge (C72_without_ties_partial)."
  },
  {
   "property": "C73",
   "status": "partial",
   "theorems": [
    "C73_error_exact_partial",
    "C73_stale_errno_refuted",
    "C73_every_stale_errno_refuted",
    "C73_exact_iff_partial"
   ],
   "note": "False of the code for -EPERM with a stale errno (refuted); exact for every other failure. C73_every_stale_errno_refuted and C73_exact_iff_partial: over all failures and all values of errno the report is exact except precisely for -EPERM with a leftover errno that is neither 0 nor EPERM."
  },
  {
   "property": "C74",
   "status": "partial",
   "theorems": [
    "C74_added_while_all_workers_run_partial",
    "C74_add_after_any_worker_exit_refuted",
    "C74_add_loop_after_worker_exit_refuted"
   ],
   "note": "False of the code: the ended thread's attribute object is dereferenced (refuted). Also proved: as long as every add_loop happens before the first worker exit, no undefined behaviour (C74_added_while_all_workers_run_partial). C74_add_after_any_worker_exit_refuted: for every history in which a worker has ended, the next add_loop() of a new loop uses the attribute object of the ended thread."
  },
  {
   "property": "C75",
   "status": "partial",
   "theorems": [
    "C75_idle_times_one_at_a_time_partial",
    "C75_two_event_loops_refuted",
    "C75_accepted_after_quick_stop_refuted"
   ],
   "note": "False of the code: the function-local static vector is shared between event loops (data race, wrong minimum); quick_stop() does not set the flag that refuses events. Also proved: if the event loops use max_sleep_duration one at a time the answer is the minimum (C75_idle_times_one_at_a_time_partial)."
  },
  {
   "property": "C76",
   "status": "partial",
   "theorems": [
    "C76_up_to_the_first_failure_partial",
    "C76_for_each_exception_refuted"
   ],
   "note": "False of the code: no element after the first failing one is ever run (theorem for all schedules). Also proved: up to and including the first failure everything runs in order (C76_up_to_the_first_failure_partial)."
  },
  {
   "property": "C77",
   "status": "partial",
   "theorems": [
    "C77_after_stop_refuted",
    "C77_always_ten_seconds_refuted",
    "C77_after_quick_stop_partial"
   ],
   "note": "False of the code: 10 s are offered (refuted). So for every history with a stop() and every thread (C77_always_ten_seconds_refuted). What holds: after quick_stop() alone the idle time is zero while something is outstanding (C77_after_quick_stop_partial)."
  },
  {
   "property": "C78",
   "status": "partial",
   "theorems": [
    "C78_exactly_the_first_from_a_worker_partial",
    "C78_stop_from_task_refuted"
   ],
   "note": "False of the code: join() of the own thread throws inside a noexcept function, std::terminate (refuted). Also proved for all schedules: terminated exactly if the first stop() of all comes from a worker (C78_exactly_the_first_from_a_worker_partial)."
  },
  {
   "property": "C79",
   "status": "partial",
   "theorems": [
    "C79_cancel_all_refuted",
    "C79_cancel_any_ignores_arguments_refuted",
    "C79_number_canceled_refuted",
    "C79_cancel_all_single_partial",
    "C79_cancel_all_never_others_partial",
    "C79_number_of_batch_cancel_all_partial",
    "C79_nothing_cancelled_is_reported_partial"
   ],
   "note": "False of the code: cancel_all cancels one; cancel_any cancels everything; number_canceled() is 0 after a successful cancellation (refuted for all pending sets). Also proved: right with at most one matching operation pending, never touches others, the batch version counts right, 'nothing cancelled' is always reported (C79_\u2026_partial)."
  },
  {
   "property": "C80",
   "status": "partial",
   "theorems": [
    "C80_only_overwritten_is_leaked_partial",
    "C80_assign_over_empty_partial",
    "C80_guard_move_assign_leaks_refuted",
    "C80_guard_self_assign_leaks_refuted"
   ],
   "note": "False of the code: the overwritten registration is leaked, wait() then never completes (refuted, both forms). Also proved for every program over guards: exactly the registrations assigned over or cleared while live are lost, nothing else (C80_only_overwritten_is_leaked_partial); assignment over an empty guard moves the registration."
  },
  {
   "property": "C81",
   "status": "partial",
   "theorems": [
    "C81_uring_exception_of_int_refuted",
    "C81_uring_exception_loses_code_refuted"
   ],
   "note": "False of the code for every error code: \"no error\" is reported and has_error_code() reads an indeterminate value (theorem)."
  },
  {
   "property": "C82",
   "status": "partial",
   "theorems": [
    "C82_taken_at_once_partial",
    "C82_plain_file_refuted",
    "C82_zero_write_spins_refuted",
    "C82_huge_buffer_refuted"
   ],
   "note": "False of the code in all three ways (refuted). Also proved: if the first write takes the whole buffer the plain file is right (C82_taken_at_once_partial)."
  },
  {
   "property": "C83",
   "status": "partial",
   "theorems": [
    "C83_reported_by_the_code_partial",
    "C83_exception_loses_count_refuted",
    "C83_uring_exception_silent_refuted",
    "C83_cancel_swallowed_refuted"
   ],
   "note": "False of the code: count 0 with bytes in the buffer; a uring_exception is not reported at all; ECANCELED is swallowed (refuted). Also proved for all kernel behaviours: the overloads with an error code report a cancellation with the exact count and every foreign exception with an error (C83_reported_by_the_code_partial)."
  },
  {
   "property": "C84",
   "status": "partial",
   "theorems": [
    "C84_added_before_a_stop_partial",
    "C84_added_after_the_last_stop_refuted",
    "C84_added_after_stop_refuted"
   ],
   "note": "False of the code: accepted, never stopped (refuted). Also proved: a loop added before some stop is stopped (C84_added_before_a_stop_partial). C84_added_after_the_last_stop_refuted: for every history and every loop added in it after which stop() is not called again, the loop is driven and never receives stop(), however often stop() was called before."
  },
  {
   "property": "C85",
   "status": "partial",
   "theorems": [
    "C85_only_destruction_is_left_partial",
    "C85_end_seen_before_locals_destroyed_refuted"
   ],
   "note": "False of the code: the consumer is woken in return_void, before the locals are destroyed (refuted). Also proved: after the end is seen only the destruction of the locals is left (C85_only_destruction_is_left_partial)."
  },
  {
   "property": "C86",
   "status": "partial",
   "theorems": [
    "C86_over_an_empty_generator_partial",
    "C86_every_assignment_over_a_body_leaks_refuted",
    "C86_move_assign_leaks_refuted"
   ],
   "note": "False of the code: the frame leaks (refuted). Also proved: assignment over an empty generator leaks nothing and keeps ownership unique (C86_over_an_empty_generator_partial). C86_every_assignment_over_a_body_leaks_refuted: for every history, an assignment from another generator object over one that still has a body leaves that body alive and unreachable for ever, whatever is destroyed afterwards."
  },
  {
   "property": "C87",
   "status": "partial",
   "theorems": [
    "C87_max_means_none_partial",
    "C87_max_overflows_refuted",
    "C87_long_timeouts_overflow_refuted",
    "C87_last_moment_means_none_partial",
    "C87_deplete_max_overflows_refuted",
    "C87_deplete_clock_end_refuted"
   ],
   "note": "True through op_batch::timeout(duration) (theorem); elsewhere signed overflow for every clock value (refuted)."
  },
  {
   "property": "C88",
   "status": "partial",
   "theorems": [
    "C88_send_success_means_sent_partial",
    "C88_send_prefix_waits",
    "C88_send_sixth_attempt_refuted",
    "C88_send_success_refuted",
    "C88_send_gives_up_silently_refuted",
    "C88_long_message_refuted",
    "C88_timeout_is_an_empty_message_refuted"
   ],
   "note": "False of the code: success after errors, short prefix writes and 11 timeouts; a prefix timeout is an empty message (refuted); sender proved for smooth kernels (partial)."
  },
  {
   "property": "C89",
   "status": "partial",
   "theorems": [
    "C89_until_done_waits_refuted",
    "C89_is_stop_before_loops_refuted",
    "C89_until_done_waits_partial"
   ],
   "note": "False of the code if called before the accept loops have begun (refuted for every number of workers); holds when called after (partial)."
  },
  {
   "property": "C90",
   "status": "partial",
   "theorems": [
    "C90_closed_as_often_as_taken_partial",
    "C90_double_close_refuted"
   ],
   "note": "False of the code: double close / leak (refuted). Also proved: closed exactly as often as taken, so exactly once iff taken exactly once (C90_closed_as_often_as_taken_partial)."
  },
  {
   "property": "C91",
   "status": "partial",
   "theorems": [
    "C91_owns_lock_truthful_partial",
    "C91_owns_lock_default_refuted"
   ],
   "note": "Holds for every handle made by acquire and moves; a default-constructed handle claims ownership (refuted)."
  },
  {
   "property": "C92",
   "status": "partial",
   "theorems": [
    "C92_done_zero_otherwise_harmless_partial",
    "C92_done_zero_keeps_counter_partial",
    "C92_done_zero_wakes_refuted",
    "C92_done_zero_wakes_everybody_refuted"
   ],
   "note": "False of the code (refuted): done(0) resumes all waiters while the counter is positive. Also proved for every execution: done(0) never changes the counter, and at any counter other than 1 it changes nothing at all (C92_\u2026_partial). C92_done_zero_wakes_everybody_refuted: in every history that reaches counter 1, done(0) resumes any waiter in the queue, with the counter still 1."
  },
  {
   "property": "C93",
   "status": "partial",
   "theorems": [
    "C93_at_most_one_gets_it_partial",
    "C93_first_asker_gets_it_partial",
    "C93_two_futures_refuted"
   ],
   "note": "False of the code (refuted). Also proved for any number of futures: at most one delivery, and the first future asking after fulfilment gets the exact result (C93_\u2026_partial)."
  },
  {
   "property": "C94",
   "status": "partial",
   "theorems": [
    "C94_exactly_misuse_partial",
    "C94_any_thread_may_enqueue_partial",
    "C94_unregistered_use_refuted"
   ],
   "note": "False of the code: enqueueing before any worker registered, and dequeueing by an unregistered thread, is undefined behaviour in every state (refuted). Also proved: undefined behaviour happens exactly in the executions with such a misuse, and any thread may enqueue once a consumer registered (C94_\u2026_partial)."
  },
  {
   "property": "C95",
   "status": "partial",
   "theorems": [
    "C95_destroyed_at_rest_partial",
    "C95_dir_mutex_destructor_breaks_exclusion_refuted",
    "C95_dir_mutex_destructor_always_breaks_exclusion_refuted"
   ],
   "note": "False of the code: the destructor removes the lock file whoever holds it (refuted, also in general form). Also proved: exclusion holds in every schedule that destroys objects only at rest (C95_destroyed_at_rest_partial)."
  },
  {
   "property": "C96",
   "status": "proved",
   "theorems": [
    "C96_result_exact",
    "C96_completes_once",
    "C96_no_lost_wakeup",
    "C96_never_stuck",
    "C96_every_schedule"
   ],
   "note": "all interleavings; progress is stated as enabledness plus a bound of four steps C96_every_schedule: every execution has at most 11 + 3k steps (k suspensions of the callee) and where nothing can happen any more the co_await has completed."
  },
  {
   "property": "C97",
   "status": "partial",
   "theorems": [
    "C97_locals_alive_refuted",
    "C97_exception_partial",
    "C97_never_suspending_partial"
   ],
   "note": "False of the code for every value returned with co_return (the promise is fulfilled in return_value(), before the locals are destroyed); proved for bodies ending with an exception and for eager tasks that never suspend."
  },
  {
   "property": "C98",
   "status": "partial",
   "theorems": [
    "C98_turn_into_scheduler_refuted",
    "C98_turn_into_scheduler_partial"
   ],
   "note": "False of the code from every non-worker thread in one schedule; proved when the caller began on a worker or await_ready() found the helper unfinished."
  },
  {
   "property": "C99",
   "status": "proved",
   "theorems": [
    "C99_exec_submits_what_was_asked",
    "C99_copies_live_as_long_as_the_batch",
    "C99_exec_possible",
    "C99_spent_batch",
    "C99_fresh_batch",
    "C99_no_leak"
   ],
   "note": "Invariant over all proper histories (resources alive, copies owned by exactly one batch)."
  },
  {
   "property": "C100",
   "status": "partial",
   "theorems": [
    "C100_assign_to_own_resource_refuted",
    "C100_assign_from_own_resource_refuted",
    "C100_same_user_resource_partial"
   ],
   "note": "Refuted: assigning to a default-constructed batch is undefined behaviour in every properly reached state (its memory resource dies before the containers using it are assigned); assigning from one with copied arguments to a batch on a user resource makes the later destruction undefined. Proved for two batches on the same user resource."
  },
  {
   "property": "C101",
   "status": "partial",
   "theorems": [
    "C101_moved_then_awaited_refuted",
    "C101_every_move_breaks_refuted",
    "C101_source_is_spent_refuted",
    "C101_in_place_partial",
    "C101_never_moved_partial"
   ],
   "note": "Refuted: every awaitable made by move construction refers to the batch inside its source; awaiting it is undefined behaviour in every reachable state. Proved when awaited in place. In a history in which nothing is moved there is no undefined behaviour, and the operations submitted are those of the awaitables awaited, in that order (C101_never_moved_partial)."
  },
  {
   "property": "C102",
   "status": "proved",
   "theorems": [
    "C102_kernel_takes_every_entry",
    "C102_socket_flags_must_be_zero",
    "C102_cancel_entries",
    "C102_batch_asks_for_what_was_prepared",
    "C102_empty_batch_must_not_be_executed",
    "C102_operation_functions",
    "C102_socket_is_nonblocking"
   ],
   "note": "For all batches in range: submitted requests and link flags equal the specification's; executing an empty batch is undefined (C102_empty_batch_must_not_be_executed). liburing's prep functions and the kernel's reading of the entries are part of the model."
  },
  {
   "property": "C103",
   "status": "partial",
   "theorems": [
    "C103_long_buffers_refuted",
    "C103_four_gib_asks_for_nothing_refuted",
    "C103_last_offset_refuted",
    "C103_buffers_partial"
   ],
   "note": "Refuted: from 4 GiB on the kernel is asked for the length modulo 2^32 (0 bytes for exactly 4 GiB), for read/write by an explicit cast, for send/recv by liburing's 32-bit field; offset 2^64-1 means the file position. Proved below 4 GiB."
  },
  {
   "property": "C104",
   "status": "partial",
   "theorems": [
    "C104_never_completes_refuted",
    "C104_late_success_refuted",
    "C104_one_operation_partial",
    "C104_last_operation_partial",
    "C104_in_time_partial"
   ],
   "note": "Refuted: the timeout is linked to, and armed with, the last operation only; a batch whose earlier operation blocks never completes, or completes late with success. Proved: batches with one operation (all operation functions) complete by the deadline; longer ones by the deadline or the sum of the earlier operations' durations; operations in time are not disturbed."
  },
  {
   "property": "C105",
   "status": "partial",
   "theorems": [
    "C105_status_touches_only_living_mutexes",
    "C105_status_is_complete",
    "C105_second_init_refuted"
   ],
   "note": "Proved for every interleaving in which runtime_init() is not called again while mutexes are registered: printing touches living mutexes only, and all those ever acquired. Refuted for a second runtime_init(): a mutex then deregisters from the new runtime only."
  },
  {
   "property": "C106",
   "status": "partial",
   "theorems": [
    "C106_no_runtime_refuted",
    "C106_after_stop_refuted",
    "C106_while_up_partial",
    "C106_up_until_stop_partial",
    "C106_acquired_before_partial",
    "C106_not_blocked_partial"
   ],
   "note": "Refuted: without a runtime, after stop() and during static destruction ~mutex() and the first acquisition terminate the process (a throw out of noexcept code). Proved: while the runtime is up (which only stop() and static destruction end) no operation on a mutex terminates and none is blocked while nothing is being printed; a mutex acquired once can be acquired in every state."
  },
  {
   "property": "C107",
   "status": "partial",
   "theorems": [
    "C107_running_event_loop_refuted",
    "C107_stopped_first_partial",
    "C107_plain_pool_partial",
    "C107_manual_pool_blocks",
    "C107_destructor_returns_partial",
    "C107_every_schedule_partial",
    "C107_polls_destroyed_loop_refuted",
    "C107_stop_ends_workers"
   ],
   "note": "Refuted for event loops with at least one component and one worker: the components are destroyed before the workers are stopped. Proved: with stop() or quick_stop() returned before, for any number of loops; a plain pool at any time, whose destructor returns under every schedule; a manually_stop pool that was not stopped never returns."
  },
  {
   "property": "C108",
   "status": "partial",
   "theorems": [
    "C108_no_harm_partial",
    "C108_stops_partial",
    "C108_second_sigint_terminates",
    "C108_on_a_worker_refuted",
    "C108_while_logging_refuted",
    "C108_while_stopping_refuted",
    "C108_during_init_refuted",
    "C108_second_runtime_refuted"
   ],
   "note": "Refuted, each for all continuations: delivered to a worker (self-join: termination or the handler never returns), to a thread writing a log line, to a thread waiting in stop(); during runtime_init() (null or half-built scheduler); in a second runtime (the flag is never reset). Proved: one SIGINT to any other thread while the runtime is up does no harm, and under every schedule the handler and every stop() return within a bounded number of steps with all workers ended; a second SIGINT terminates."
  },
  {
   "property": "C109",
   "status": "partial",
   "theorems": [
    "C109_other_thread_refuted",
    "C109_waits_at_its_worker_partial",
    "C109_steals_only_without_own_partial"
   ],
   "note": "Refuted: any worker that finds its own queue empty may take the task. Proved: until taken, the task waits in the queue of the worker it is for; a worker takes a task meant for another one only if its own queue was empty when it began to look."
  },
  {
   "property": "C110",
   "status": "proved",
   "theorems": [
    "C110_no_worker_sleeps_over_a_task",
    "C110_who_looks_finds",
    "C110_enqueue_wakes_a_sleeper",
    "C110_a_woken_worker_looks",
    "C110_immediately_refuted"
   ],
   "note": "Timed model in which everything but sleeping and executing tasks takes no time. At once, instead of within 500 ms, is refuted (lost notification)."
  },
  {
   "property": "C111",
   "status": "proved",
   "theorems": [
    "C111_no_worker_sleeps_through_quick_stop",
    "C111_no_further_task",
    "C111_at_once_refuted"
   ],
   "note": "Same timed model; at once, instead of within 500 ms, is refuted (lost notification)."
  },
  {
   "property": "C112",
   "status": "proved",
   "theorems": [
    "C112_all_listed_once",
    "C112_listed_after_preparation",
    "C112_start_returns"
   ],
   "note": "StartUp.v: n workers, start(), latch, listing; termination of start() by a decreasing measure on every maximal run."
  },
  {
   "property": "C113",
   "status": "partial",
   "theorems": [
    "C113_number_of_threads_refuted",
    "C113_bounds_partial",
    "C113_constant_partial"
   ],
   "note": "Refuted for every n>0: the worker reads the size of the vector while start() is still filling it, so the first worker may see 0 (and that read is a data race). Proved: the value of worker w is between w and n, and never changes."
  },
  {
   "property": "C114",
   "status": "partial",
   "theorems": [
    "C114_after_stop_refuted",
    "C114_before_stop_partial"
   ],
   "note": "Refuted: the attribute object is a local variable of the worker, and its entry stays listed after the worker has ended. Proved: true for all entries as long as no stop has been requested."
  },
  {
   "property": "C115",
   "status": "partial",
   "theorems": [
    "C115_busy_worker_refuted",
    "C115_overdue_only_while_busy_partial",
    "C115_poll_before_anything_partial",
    "C115_fired_in_time_partial",
    "C115_then_half_a_second_partial"
   ],
   "note": "Refuted: timers are per worker; while the worker on which the coroutine went to sleep executes another task nobody looks at its timer, for any length of time and with the other worker idle. Proved: never handed over before the deadline; overdue only while that worker has been executing one task since before the deadline; then it polls before anything else; then at most half a second until no worker is idle."
  },
  {
   "property": "C116",
   "status": "partial",
   "theorems": [
    "C116_clock_set_forward_refuted",
    "C116_never_early_partial"
   ],
   "note": "Refuted: high_resolution_clock is the wall clock; set forward by d it ends a sleep of d at once. Proved for every clock that never gains on real time (it may stop, slow down or be set back)."
  },
  {
   "property": "C117",
   "status": "partial",
   "theorems": [
    "C117_id_identifies_living_task_partial",
    "C117_id_reused_refuted"
   ],
   "note": "Proved: stable, non-null, unique among tasks none of which has ended, in every history. Refuted for all ids: the id is the frame's address and is given to a later task once the first has ended."
  },
  {
   "property": "C118",
   "status": "partial",
   "theorems": [
    "C118_cancel_same_worker_partial",
    "C118_cancel_hits_only_the_id_partial",
    "C118_cancel_other_worker_refuted",
    "C118_stale_id_refuted"
   ],
   "note": "Proved: with the canceller on the worker whose ring holds the operation and the target alive, exactly the target's operation is cancelled and nothing else changes; -ENOENT iff nobody with that id waits on the canceller's ring. Refuted: an operation pending on any other worker's ring is never found; a stale id cancels an unrelated task's operation. Not modelled: several operations of one task at once (multi-operation batches)."
  },
  {
   "property": "C119",
   "status": "proved",
   "theorems": [
    "C119_each_task_runs_its_code",
    "C119_cooperative_programs_complete"
   ],
   "note": "Every schedule has at most 3*size+1 steps, cannot get stuck before everything has ended, and can be completed from every point. Model: any free worker may take any queued task; a task that sleeps or does I/O is resumed by the worker it ran on, between two tasks, after a finite time; no exceptions, no spurious wake-ups (C69), pool not stopped. C119_each_task_runs_its_code: every task does its own code, in order, nothing twice and nothing left out."
  },
  {
   "property": "C120",
   "status": "partial",
   "theorems": [
    "C120_blocking_programs_complete_partial",
    "C120_stuck_only_if_all_blocked_partial",
    "C120_all_workers_block_refuted"
   ],
   "note": "Refuted for every number n of workers: n tasks that call result() on a lazy task can block all workers for good. Proved: complete under every schedule if fewer than n tasks call get() and none sleeps or does I/O; and for every program the only ways to get stuck are that all n workers are inside get(), or that one is whose event loop holds a task (C156)."
  },
  {
   "property": "C121",
   "status": "partial",
   "theorems": [
    "C121_exact_partial",
    "C121_until_partial",
    "C121_sleep_for_max_refuted",
    "C121_sleep_until_max_refuted",
    "C121_sleep_until_min_refuted"
   ],
   "note": "Proved: exact for every unit and count if and only if the deadline is representable (before 2262), sleep_until late by what passes between the two clock readings. Refuted: duration::max() overflows for every unit at any time after 1970, time_point::max() whenever time passes between the two readings, time_point::min() always."
  },
  {
   "property": "C122",
   "status": "partial",
   "theorems": [
    "C122_eager_partial",
    "C122_destructor_refuted",
    "C122_lazy_refuted"
   ],
   "note": "Proved for callables returning eager tasks: every use by a statement of the body finds the callable alive. Refuted for lazy ones: every use finds it gone, in every history (the by-value parameter dies when make_lazy returns). Refuted for uses in destructors of the body's locals, also for eager ones."
  },
  {
   "property": "C123",
   "status": "proved",
   "theorems": [
    "C123_to_collects",
    "C123_set_union"
   ],
   "note": "unique_impl and merge are modelled as the coroutines they are, each call of next_value_async answered by the inner generator (C19), sources finite here. Container push_back and iterator assignment are appending."
  },
  {
   "property": "C124",
   "status": "proved",
   "theorems": [
    "C124_merge_on_demand",
    "C124_merge_answers"
   ],
   "note": "For arbitrary input generators of the model (sources given by any function, unique and merge of any depth). On ties the second argument comes first (C72)."
  },
  {
   "property": "C125",
   "status": "partial",
   "theorems": [
    "C125_unique_on_demand_partial",
    "C125_value_withheld_refuted",
    "C125_first_value_withheld_refuted"
   ],
   "note": "Refuted: a value is delivered only when a different one or the end arrives, so the last distinct value of a generator that goes on for ever, even the first value of a constant one, is never delivered. Proved: at any moment exactly what unique means on the values read has been delivered but for one held value, none after the end."
  },
  {
   "property": "C126",
   "status": "partial",
   "theorems": [
    "C126_connect",
    "C126_bind_partial",
    "C126_error",
    "C126_error_is_kernels_refuted",
    "C126_flags_ignored_refuted"
   ],
   "note": "Proved for connect_get_sock; for bind_get_sock_tcp except for the flags, which are ignored (refuted: no flags argument changes anything). Assumed: unique_posix_fd closes when destroyed, errret_thrower throws on failure (both in toolpex); the frame is not destroyed while an operation is in flight (C90)."
  },
  {
   "property": "C127",
   "status": "partial",
   "theorems": [
    "C127_exactly_once",
    "C127_wake_all_wakes_all",
    "C127_answers",
    "C127_wake_all_bounded",
    "C127_wake_all_can_return",
    "C127_wake_all_endless_refuted"
   ],
   "note": "All proved except that may_wake_all always returns: it goes round once per task waiting at its begin or added meanwhile, so it returns when nobody adds any more; refuted in general: a task that comes back after being woken keeps it going for ever. The lock-free queue is modelled as an atomic bag."
  },
  {
   "property": "C128",
   "status": "proved",
   "theorems": [
    "C128_sections_serial",
    "C128_no_lost_update"
   ],
   "note": "Over the atomic-step model of the mutex (C01), sequentially consistent memory; the discipline that data is touched only while the lock is held is the client's and is a guard of the action steps."
  },
  {
   "property": "C129",
   "status": "partial",
   "theorems": [
    "C129_reads_are_stable_partial",
    "C129_torn_read_refuted"
   ],
   "note": "Proved for every history, waiting readers included, that does not hit one of the two defects of C04. Refuted in general: a reader that had to wait sees a value change under its lock."
  },
  {
   "property": "C130",
   "status": "proved",
   "theorems": [
    "C130_no_lost_wakeup",
    "C130_quiescent_means_idle",
    "C130_first_come_first_served",
    "C130_two_threads_overtaking"
   ],
   "note": "Schedules of one thread; the waiting queue of moodycamel is FIFO for a single producer and does not fail spuriously on the thread that fills it (assumed). With two threads: overtaking (C130_two_threads_overtaking) and lost wake-up (C02)."
  },
  {
   "property": "C131",
   "status": "proved",
   "theorems": [
    "C131_sections_happen_before_each_other",
    "C131_what_is_needed",
    "C131_ends_happen_before",
    "C131_each_is_needed"
   ],
   "note": "Happens-before over the positions of a record of the memory operations (one atomic variable; queues and scheduler synchronise what is passed through them: trusted). C131_each_is_needed: weakening any of the three orders gives an execution with a race."
  },
  {
   "property": "C132",
   "status": "proved",
   "theorems": [
    "C132_join_visibility",
    "C132_join",
    "C132_each_is_needed",
    "C132_unordered_add"
   ],
   "note": "Loads may return stale values within coherence (a hypothesis that states what C++ guarantees); C132_each_is_needed: weakening any of the three orders gives an unordered execution; C132_unordered_add: the ordering of add() before wait() is needed. The restriction on add() during a draining done() is needed because of C45."
  },
  {
   "property": "C133",
   "status": "partial",
   "theorems": [
    "C133_refuted",
    "C133_after_return_partial",
    "C133_one_worker_partial"
   ],
   "note": "Refuted in both ways in which wait() completes: done() still reads the waiting queue after the decrement that lets the waiter go on. Proved: safe if all done() calls have returned, and always on one worker."
  },
  {
   "property": "C134",
   "status": "partial",
   "theorems": [
    "C134_refuted",
    "C134_after_return_partial",
    "C134_one_worker_partial"
   ],
   "note": "Refuted: unlock() still uses the flag and the queue after the clear that lets the next owner in. Proved: safe if all unlock() calls have returned, and always on one worker."
  },
  {
   "property": "C135",
   "status": "proved",
   "theorems": [
    "C135_completes",
    "C135_refines_the_model",
    "C135_order_is_needed"
   ],
   "note": "Mutex/Programs.v: one step per operation, proved to be a sequence of steps of Mutex/Model.v on one thread (C135_refines_the_model). The scheduler's queue is left open (any ready task may be picked); with two workers the lost wake-up of C02 applies."
  },
  {
   "property": "C136",
   "status": "proved",
   "theorems": [
    "C136_no_lost_wakeup",
    "C136_all_released",
    "C136_waits_only_while_positive",
    "C136_done_by_two"
   ],
   "note": "WaitGroup/Single.v, over WaitGroup/Model.v restricted to one thread (the next step belongs to the coroutine that is inside an operation). With several workers C06 and C07 say what may be lost."
  },
  {
   "property": "C137",
   "status": "partial",
   "theorems": [
    "C137_polling_ends",
    "C137_cancel_strands_waiters_refuted"
   ],
   "note": "Proved: polling ends (C137_polling_ends). Refuted: the waiters are not told (C137_cancel_strands_waiters_refuted, nobody destroys an object). That cancel_all_polling() blocks its own thread in item.get() until the pollers ended is C157."
  },
  {
   "property": "C138",
   "status": "proved",
   "theorems": [
    "C138_polls_then_works_or_sleeps"
   ],
   "note": "Counted over every history of the thread pool model (Turns.v)."
  },
  {
   "property": "C139",
   "status": "proved",
   "theorems": [
    "C139_completes",
    "C139_leaves_nothing",
    "C139_no_misuse",
    "C139_order_is_needed",
    "C139_refines_the_models"
   ],
   "note": "Structured/: one step per operation of a mutex, group or future; C139_refines_the_models proves that every such run is, for each mutex, group and future, a run of Mutex/Model.v, WaitGroup/Model.v (one thread; the total added to a group below 2^64) and Future/Model.v. The scheduler's queue is left open (any ready task may be picked). Tasks do not throw (C96 has exceptions); with two workers the lost wake-ups of C02, C06 and C07 apply."
  },
  {
   "property": "C140",
   "status": "partial",
   "theorems": [
    "C140_one_at_a_time",
    "C140_locals_last",
    "C140_locals_race_refuted"
   ],
   "note": "Proved for all accesses of the bodies and for the destruction of a suspended body, without using the edges of the spin lock or of m_finalized. Refuted for the local variables of a body that has ended: their destruction races with the consumer. Trusted: enqueueing into the scheduler happens before the resumption."
  },
  {
   "property": "C141",
   "status": "proved",
   "theorems": [
    "C141_result_is_visible",
    "C141_locals_race_refuted"
   ],
   "note": "Weak/Future.v over the step relation of Future/Model.v; trusted: std::mutex (unlock synchronizes with later lock); edges through the scheduler are not needed. What the task does after its result was stored (destruction of its locals after co_return, C97) is not ordered with the consumer: C141_locals_race_refuted."
  },
  {
   "property": "C142",
   "status": "partial",
   "theorems": [
    "C142_preparation_alone",
    "C142_list_is_stable",
    "C142_blocked_for_good",
    "C142_calls_return_partial",
    "C142_add_from_callback_refuted",
    "C142_ask_from_preparation_refuted"
   ],
   "note": "EventLoop/Callbacks.v. Exclusion of preparation and stability of the list proved for every behaviour of the callbacks. That calls return is proved for callbacks that call nothing of the container (C142_calls_return_partial: completion, bound on steps, no deadlock) and refuted otherwise: a callback that adds a loop, or a preparation that asks the container anything, blocks for good in every continuation, and with it every later add_loop() and preparation, or every later call (C142_blocked_for_good and the two _refuted theorems). Formally such a call is undefined behaviour of std::shared_mutex; the model takes the usual implementation, which blocks. m_attrs is keyed by the calling thread."
  },
  {
   "property": "C143",
   "status": "partial",
   "theorems": [
    "C143_no_poll_after_quick_stop_partial",
    "C143_flag_race_refuted"
   ],
   "note": "First part proved with the accesses to the mark taken one at a time (C143_no_poll_after_quick_stop_partial). Second part refuted: m_cleanning is a plain bool written under a shared lock only; a reachable state has both accesses next (C143_flag_race_refuted)."
  },
  {
   "property": "C144",
   "status": "partial",
   "theorems": [
    "C144_never_races_with_itself",
    "C144_sees_its_creator",
    "C144_sees_its_waker",
    "C144_acquire_shared_refuted"
   ],
   "note": "Weak/Self.v. Ordering proved for every kind of hand-over (C144_never_races_with_itself, C144_sees_its_creator, C144_sees_its_waker); trusted: putting an item into a concurrent queue synchronizes with taking it out, unlock with later lock. Refuted for the one access await_suspend() makes after the hand-over, in acquire_shared() (C144_acquire_shared_refuted, cf. C47)."
  },
  {
   "property": "C145",
   "status": "proved",
   "theorems": [
    "C145_completes",
    "C145_leaves_nothing",
    "C145_exceptions_arrive",
    "C145_order_does_not_matter",
    "C145_no_misuse"
   ],
   "note": "Structured/Scoped.v is a machine with scopes and exceptions whose mutex/group/task operations are those of Structured/Model.v (refinement to the class models: Structured/Refine.v). C145_completes: bound and exact results, given by a scheduler-independent big-step semantics (ScopedSpec.v means). C145_leaves_nothing, C145_exceptions_arrive, C145_order_does_not_matter, C145_no_misuse; C145_case has three tasks that throw under locks and report to a group. Stated for one worker: with several workers a result is delivered before the task's locals are destroyed (C97)."
  },
  {
   "property": "C146",
   "status": "proved",
   "theorems": [
    "C146_like_calls",
    "C146_completes",
    "C146_one_worker",
    "C146_destructors_late_refuted",
    "C146_quick_start",
    "C146_example_main"
   ],
   "note": "Calls/Model.v: a stack of coroutine frames, threads with C++ stacks (an eager callee runs on top of its caller), the await_ready/await_suspend/set_value race, exceptions; Calls/Spec.v gives the meaning as function calls. C146_like_calls, C146_completes, C146_one_worker; C146_destructors_late_refuted shows that with two workers a destructor does come late (C97), which is why the claim leaves that open; C146_quick_start is the README program and C146_example_main is example/main.cc for any number of iterations and workers. Assumes that the queue hands out every task once (C14) in any order and that result() is not woken spuriously (C69)."
  },
  {
   "property": "C147",
   "status": "partial",
   "theorems": [
    "C147_in_order_of_one_thread",
    "C147_one_turn_each",
    "C147_two_turns_each",
    "C147_not_forgotten",
    "C147_task_of_main_refuted",
    "C147_two_workers_refuted"
   ],
   "note": "Proved: C147_in_order_of_one_thread and C147_not_forgotten (any number of workers), C147_one_turn_each and C147_two_turns_each (one worker, nothing enqueued from outside meanwhile). False otherwise, because nothing orders what different threads enqueued: C147_task_of_main_refuted (one worker, two tasks that yield, a third started from main() never runs; with moodycamel's choice of the longest list this is what happens) and C147_two_workers_refuted."
  },
  {
   "property": "C148",
   "status": "proved",
   "theorems": [
    "C148_deterministic",
    "C148_completes",
    "C148_futures_refine"
   ],
   "note": "C148_deterministic, C148_completes: every program of Spec.v in which every awaited future exists (wf), every number of workers. The order in which different coroutines do things varies (C148_case shows one that is not the sequential one), what they do does not. The queue hands out tasks in any order, nobody stops the pool; locals and frames are in C17, C146. C148_futures_refine: what such a program does with any of its futures is a run of Future/Model.v (C09, C10) that ends in the matching state."
  },
  {
   "property": "C149",
   "status": "partial",
   "theorems": [
    "C149_accesses_happen_before_each_other_partial",
    "C149_accesses_happen_before_each_other_refuted"
   ],
   "note": "Weak/SharedMutex.v, over SharedMutex/Model.v: the operations of every step on m_lock, the scheduler and the data; happens-before from program order, std::mutex and the scheduler's queue only. C149_accesses_happen_before_each_other_partial holds for every history that does not hit one of the two defects of C04; C149_accesses_happen_before_each_other_refuted: with the defect of C04 a reader and a writer race. The read/write order of two readers is, rightly, open. Trusted: std::mutex and the scheduler's queue synchronise."
  },
  {
   "property": "C150",
   "status": "partial",
   "theorems": [
    "C150_nobody_works",
    "C150_reports_apart",
    "C150_looked_in_vain",
    "C150_idle_refuted"
   ],
   "note": "ThreadPool/Health.v: every access to the counters is a step. Proved for any number of workers: no worker executes a task when it is printed (C150_nobody_works), two reports are 15 s apart if nobody sets the system clock (C150_reports_apart), its worker has looked in vain more often than there are workers (C150_looked_in_vain). C150_idle_refuted: it is printed while a task waits for a timer or for I/O (has_pending_event() is never overridden), while a task is already enqueued, and a moment after a task was executed (the condition looks at the last report, not at the last activity)."
  },
  {
   "property": "C151",
   "status": "proved",
   "theorems": [
    "C151_every_execution_is_an_interleaving",
    "C151_no_data_race",
    "C151_mutual_exclusion"
   ],
   "note": "Weak/MutexGraph.v: executions are graphs (sequenced-before, reads-from, modification order) with the axioms of the C++ standard for one atomic variable (read-modify-writes read the modification before them, coherence, no cycle in happens-before). C151_every_execution_is_an_interleaving (linear extension of happens-before and modification order, Common/LinExt.v, simulated step by step by Mutex/Model.v), C151_no_data_race, C151_mutual_exclusion. So the interleaving semantics used in the other theorems about the mutex is no restriction. Trusted: what is put into the moodycamel queue or the scheduler is taken out at most once, and happens before."
  },
  {
   "property": "C152",
   "status": "proved",
   "theorems": [
    "C152_join_visibility",
    "C152_join"
   ],
   "note": "Weak/WaitGroupGraph.v: executions are graphs (sequenced-before, reads-from, modification order of m_count) with the standard's axioms: read-modify-writes read the modification before them, the four coherence requirements, no cycle in happens-before; release sequences. C152_join_visibility, C152_join, proved on the graphs directly, with no interleaving (a resumption is shown to follow the taking of the handle of the same co_await; the loop that takes it to be that of a done() which read 1). Trusted: what is put into the moodycamel queue or the scheduler is taken out at most once, and happens before."
  },
  {
   "property": "C153",
   "status": "partial",
   "theorems": [
    "C153_destroyed_at_most_once",
    "C153_survivors",
    "C153_awaiting_frame_never_destroyed",
    "C153_all_destroyed_partial",
    "C153_teardown_ends",
    "C153_all_destroyed_refuted"
   ],
   "note": "Task/Teardown.v. False as stated: a coroutine that is in a co_await when stop() returns is never destroyed: its frame holds the future, the future the shared state, and the shared state (m_waiting) owns the frame; task_on_the_fly.h 14-27 says the destructor will ensure destruction (C153_all_destroyed_refuted; C153_awaiting_frame_never_destroyed for every such coroutine and every continuation). Proved: C153_destroyed_at_most_once (no frame twice, none that is owned elsewhere, no reference given back that was not taken, in all executions), C153_teardown_ends (bounded, and can go on until all is torn down), C153_survivors (an exact characterisation: a frame is left if and only if it belongs to a self-sustaining set of awaiting coroutines and lazy tasks when stop() returns), C153_all_destroyed_partial (if nobody is in a co_await of a future at that moment, every frame is destroyed). Assumed: destroying a toolpex::callback_promise does not call its callback; two coroutines do not await one future (C93)."
  },
  {
   "property": "C154",
   "status": "partial",
   "theorems": [
    "C154_answers",
    "C154_once",
    "C154_get_returns",
    "C154_exceptions_contained",
    "C154_answered_by_stop_partial",
    "C154_owner_waits_forever",
    "C154_stop_answers_refuted"
   ],
   "note": "ThreadPool/Results.v, over ThreadPool/Model.v. Proved: C154_answers (value or exception of the only execution, after it ended; broken_promise exactly after destruction and without execution, ever), C154_once, C154_get_returns (get() returns after execution or destruction), C154_exceptions_contained (log exactly for functors without a future; with any other results the same execution is possible with the same states of the pool), C154_answered_by_stop_partial (if after stop() was called only running functors enqueue and nobody calls quick_stop(), every functor accepted has been executed when stop() has returned). Refuted: C154_stop_answers_refuted: enqueue() after a completed stop() is accepted (C16), and the owner of the pool, in get(), waits in every continuation (C154_owner_waits_forever in general). Trusted: std::packaged_task and std::future as in the standard."
  },
  {
   "property": "C155",
   "status": "proved",
   "theorems": [
    "C155_executed",
    "C155_once",
    "C155_happens_before_is_needed"
   ],
   "note": "Model ThreadPool/WeakStop.v: as ThreadPool/Model.v without quick_stop(), plus per-thread knowledge of enqueued functors; answers of size_approx()/try_dequeue() may be out of date as far as that knowledge allows. before (inductive) is happens-before. C155_happens_before_is_needed shows that order in time is not enough. Termination of the workers is not part of it."
  },
  {
   "property": "C156",
   "status": "partial",
   "theorems": [
    "C156_own_loop_blocks_for_good",
    "C156_get_of_eager_sleeper_refuted",
    "C156_one_get_blocks_refuted",
    "C156_only_own_loops_partial"
   ],
   "note": "Refuted: in every program, for any number of workers and under every schedule, a task that calls get() on an eager task which begins by sleeping (or I/O) never ends: the awaited task is in the event loop of the blocked worker, and nobody else looks there (C156_get_of_eager_sleeper_refuted; C156_one_get_blocks_refuted: all other workers idle, the program stuck). Proved: as long as a worker is not inside get(), only such a task can stop the program (C156_only_own_loops_partial)."
  },
  {
   "property": "C157",
   "status": "partial",
   "theorems": [
    "C157_own_timer_refuted",
    "C157_all_workers_refuted",
    "C157_failed_poll_refuted",
    "C157_bounded_partial",
    "C157_returns_outside_partial",
    "C157_waits_for_all_partial"
   ],
   "note": "Refuted: called on a worker (a dir_mutex that dies in a coroutine) while a poller of the object is asleep in that worker's timer, the call never returns, for any number of workers and under every schedule (C157_own_timer_refuted); nor do the calls when every worker is in one with a live poller, e.g. the only worker (C157_all_workers_refuted); nor when a poll has failed: get() throws inside a noexcept function and std::terminate ends the program (C157_failed_poll_refuted, C157_failed_poll_case). Proved: a call waits for at most to_come steps, a number no other step raises, and each step it waits for lowers (C157_bounded_partial); if calls are made outside the pool and no poll fails such a step is possible until the call has returned (C157_returns_outside_partial). A call waits for exactly the pollers of its object started since the last call (C157_waits_for_all_partial)."
  },
  {
   "property": "C158",
   "status": "proved",
   "theorems": [
    "C158_visible_after_stop"
   ],
   "note": "Weak/Stop.v: happens-before over program order, join and call_once (both environment), any number of workers and callers."
  },
  {
   "property": "C159",
   "status": "proved",
   "theorems": [
    "C159_what_was_done_before_enqueue",
    "C159_what_the_functor_did"
   ],
   "note": "Weak/Functors.v: happens-before over program order, the queue's hand-over and std::packaged_task/std::future (both environment)."
  },
  {
   "property": "C160",
   "status": "partial",
   "theorems": [
    "C160_no_race_partial",
    "C160_foreign_thread_refuted",
    "C160_operator_brackets_refuted"
   ],
   "note": "Weak/Timers.v. False of the code: add_event() in a thread that is no worker inserts into the unordered_map under the shared lock while workers read it (C160_foreign_thread_refuted); and by the standard's reading, in which operator[] of an unordered_map counts as a modification even if the key is present, two workers race (C160_operator_brackets_refuted). Proved for programs whose timers are added by workers, with a map whose operator[] only reads if the key is present (libstdc++)."
  },
  {
   "property": "C161",
   "status": "partial",
   "theorems": [
    "C161_kernel_touches_living_frames_partial",
    "C161_stop_refuted"
   ],
   "note": "IoUring/Alive.v. False of the code when a worker ends while an operation of its ring is in the kernel: io_uring_queue_exit() does not wait for the kernel, and m_opreps destroys the frames right after it (C161_stop_refuted). Proved for executions in which no worker ends with operations in the kernel, and for every execution on a kernel whose teardown is synchronous."
  }
 ]
}