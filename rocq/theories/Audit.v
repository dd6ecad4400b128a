(* What each claimed theorem depends on. *)
From Verif Require PropBase PropBin PropBinary PropDouble PropEmpty PropEps PropEpsEx PropEpsSim PropEvent PropExact PropFresh PropGuard PropInterSig PropIvals PropMain PropMissed PropModes PropModesEx PropMonaa PropMore PropOnline PropOnlineEps PropParse PropPrint PropPrintMain PropPrintSignal PropProd PropReal PropRename PropRound PropRoundZone PropSignal PropSignal2 PropSignal3 PropSignal4 PropSignal5 PropSignal6 PropSignal7 PropSignal8 PropSkip PropSkipEx PropStart PropStatic PropStaticVec PropStream PropTA PropTerm PropText PropTextEx PropTre PropUnused PropZA RenameAny ZALast.

Print Assumptions PropBase.C01_satisfy.
Print Assumptions PropBase.C01_compare.
Print Assumptions PropBase.C01_compare_total.
Print Assumptions PropBase.C02_contain.
Print Assumptions PropBase.C02_interval_intersection_partial.
Print Assumptions PropBase.C02_no_value_lost.
Print Assumptions PropBase.C02_interval_intersection_refuted.
Print Assumptions PropIvals.C02_exact.
Print Assumptions PropBase.C03_set_intersection_partial.
Print Assumptions PropBase.C03_set_intersection_refuted.
Print Assumptions PropIvals.C03_exact.
Print Assumptions PropBase.C04_sum.
Print Assumptions PropBase.C04_sum_sets.
Print Assumptions PropBase.C05_kleene_plus_partial.
Print Assumptions PropBase.C05_kleene_plus_sets_partial.
Print Assumptions PropBase.C05_kleene_plus_refuted.
Print Assumptions PropBase.C05_point_interval_refuted.
Print Assumptions PropIvals.C05_exact.
Print Assumptions PropIvals.C05_point_exact.
Print Assumptions PropBase.C06_tighten.
Print Assumptions PropBase.C06_tighten_clocks.
Print Assumptions PropBase.C06_tighten_upper.
Print Assumptions PropBase.C06_tighten_lower.
Print Assumptions PropBase.C07_canonize_same_set.
Print Assumptions PropBase.C07_canonize_tightest.
Print Assumptions PropBase.C07_canonize_triangle.
Print Assumptions PropBase.C08_satisfiable.
Print Assumptions PropBase.C09_elapse.
Print Assumptions PropBase.C10_reset.
Print Assumptions PropBase.C11_abstractize_enlarges.
Print Assumptions PropBase.C11_abstractize_keeps_small.
Print Assumptions PropBase.C11_abstractize_idempotent.
Print Assumptions PropBase.C12_makeUnsat.
Print Assumptions PropBase.C12_makeUnsat_undone_by_elapse.
Print Assumptions PropBase.C13_guard_implied_partial.
Print Assumptions PropBase.C13_lower_bounds_refuted.
Print Assumptions PropGuard.C13_upper.
Print Assumptions PropGuard.C13_lower.
Print Assumptions PropBase.C14_intersectionAssign_refuted.
Print Assumptions PropBase.C14_no_value_lost_partial.
Print Assumptions PropBase.C14_exact_iff_inside.
Print Assumptions PropBase.C15_equal_same_set_partial.
Print Assumptions PropBase.C15_reflexive.
Print Assumptions PropBase.C15_symmetric.
Print Assumptions PropBase.C15_equal_same_set_refuted.
Print Assumptions PropFresh.C15_reflexive_all.
Print Assumptions PropFresh.C15_symmetric_all.
Print Assumptions PropTA.C16_isMember.
Print Assumptions PropTA.C17_deepCopy.
Print Assumptions PropInterSig.C18_inputs.
Print Assumptions PropProd.C18_exact.
Print Assumptions PropProd.C18_sound.
Print Assumptions PropTA.C18_product_partial.
Print Assumptions PropTA.C18_product_words_partial.
Print Assumptions PropTA.C18_product_zeroDuration_refuted.
Print Assumptions PropTA.C18_product_overflow_refuted.
Print Assumptions PropTA.C19_reroot.
Print Assumptions PropZA.C20_simulation.
Print Assumptions PropZA.C20_empty.
Print Assumptions PropTerm.C21_termination_idle_partial.
Print Assumptions PropTerm.C21_termination_mild_partial.
Print Assumptions PropTerm.C21_cycle_diverges.
Print Assumptions PropZA.C21_termination_refuted.
Print Assumptions PropZA.C21_termination_acyclic_partial.
Print Assumptions PropZA.C22_empty.
Print Assumptions PropZA.C23_epsilonClosure.
Print Assumptions PropTerm.C24_kept_inside.
Print Assumptions PropZA.C24_removeDeadStates.
Print Assumptions PropExact.C25_automaton_partial.
Print Assumptions PropExact.C25_rounds_partial.
Print Assumptions PropExact.C25_exits_partial.
Print Assumptions PropZA.C25_complete_refuted.
Print Assumptions PropZA.C25_complete_partial.
Print Assumptions ZALast.C25_last_partial.
Print Assumptions PropExact.C26_exit.
Print Assumptions PropReal.C26_attained.
Print Assumptions PropReal.C26_chars.
Print Assumptions PropReal.C26_exact.
Print Assumptions PropSkip.C26_shortest.
Print Assumptions PropSkip.C26_shortest_acyclic.
Print Assumptions PropSkipEx.C26_lost_states_refuted.
Print Assumptions PropSkipEx.C26_unobservable_refuted.
Print Assumptions PropSkipEx.C26_unobservable_exit_refuted.
Print Assumptions PropSkip.C27_end.
Print Assumptions PropSkip.C27_delta.
Print Assumptions PropSkip.C27_length.
Print Assumptions PropSkipEx.C27_lost_states_refuted.
Print Assumptions PropSkip.C28_shift_partial.
Print Assumptions PropSkip.C28_shift_event_partial.
Print Assumptions PropSkipEx.C28_shift_refuted.
Print Assumptions PropMonaa.C29_sound.
Print Assumptions PropMonaa.C29_sound_online.
Print Assumptions PropSkip.C30_complete_partial.
Print Assumptions PropSkip.C30_complete_event_partial.
Print Assumptions PropSkipEx.C30_lost_states_refuted.
Print Assumptions PropSkipEx.C30_complete_refuted.
Print Assumptions PropSkipEx.C30_no_event_refuted.
Print Assumptions PropModes.C31_nonempty_signal.
Print Assumptions PropModes.C31_nonempty_optional.
Print Assumptions PropMonaa.C31_nonempty.
Print Assumptions PropMonaa.C31_tight.
Print Assumptions PropModes.C32_terminates_signal.
Print Assumptions PropModes.C32_terminates_optional.
Print Assumptions PropMonaa.C32_terminates.
Print Assumptions PropMonaa.C32_advances.
Print Assumptions PropMonaa.C32_byte127_refuted.
Print Assumptions PropModes.C33_sound.
Print Assumptions PropModes.C34_examined.
Print Assumptions PropModes.C34_sunday.
Print Assumptions PropModes.C34_complete_partial.
Print Assumptions PropModesEx.C34_kmp_refuted.
Print Assumptions PropModes.C35_sound_partial.
Print Assumptions PropModes.C35_exact.
Print Assumptions PropModesEx.C35_sound_refuted.
Print Assumptions PropEpsSim.C36_monaa.
Print Assumptions PropModes.C36_signal.
Print Assumptions PropModes.C36_optional.
Print Assumptions PropMonaa.C36_online_offline.
Print Assumptions PropMonaa.C36_online_no_throw.
Print Assumptions PropMonaa.C37_fetch.
Print Assumptions PropMonaa.C37_at.
Print Assumptions PropMonaa.C37_at_fetched.
Print Assumptions PropIvals.C38_unknown.
Print Assumptions PropIvals.C38_exact.
Print Assumptions PropIvals.C38_right_iff.
Print Assumptions PropMonaa.C38_size_partial.
Print Assumptions PropMonaa.C38_size_refuted.
Print Assumptions PropFresh.C39_blanks.
Print Assumptions PropText.C39_wellformed.
Print Assumptions PropText.C39_terminates.
Print Assumptions PropText.C39_case.
Print Assumptions PropText.C39_malformed_refuted.
Print Assumptions PropText.C39_binary.
Print Assumptions PropText.C40_constraint.
Print Assumptions PropText.C40_guard.
Print Assumptions PropText.C40_resets.
Print Assumptions PropText.C40_accepted.
Print Assumptions PropText.C40_terminates.
Print Assumptions PropText.C40_empty_refuted.
Print Assumptions PropText.C40_resetVars_refuted.
Print Assumptions PropText.C40_wrap_refuted.
Print Assumptions PropText.C40_truncated_refuted.
Print Assumptions PropText.C41_language.
Print Assumptions PropText.C41_guards.
Print Assumptions PropText.C41_max.
Print Assumptions PropText.C41_wf_partial.
Print Assumptions PropText.C41_resets_refuted.
Print Assumptions PropTre.C42_language_partial.
Print Assumptions PropTre.C42_restriction_partial.
Print Assumptions PropTre.C42_clocks.
Print Assumptions PropTre.C42_plus_collapse.
Print Assumptions PropTre.C42_star.
Print Assumptions PropTre.C42_plus_refuted.
Print Assumptions PropTre.C42_conjunction_refuted.
Print Assumptions PropTre.C42_restriction_refuted.
Print Assumptions PropTre.C42_restriction_extra_refuted.
Print Assumptions PropTre.C42_matches.
Print Assumptions PropTre.C42_reported_sound.
Print Assumptions PropTre.C42_reported_complete_partial.
Print Assumptions PropTre.C43_lower_only_refuted.
Print Assumptions PropTre.C43_upper_only_partial.
Print Assumptions PropTre.C44_language.
Print Assumptions PropTre.C44_reduce.
Print Assumptions PropTre.C44_reduce_empty_key_refuted.
Print Assumptions PropEps.C45_fixed_partial.
Print Assumptions PropEpsEx.C45_reset_refuted.
Print Assumptions PropText.C46_vec.
Print Assumptions PropText.C46_count.
Print Assumptions PropText.C46_printer.
Print Assumptions PropEvent.C47_event_defined_partial.
Print Assumptions PropEvent.C47_nested_star_refuted.
Print Assumptions PropSkipEx.C47_kmp_defined_partial.
Print Assumptions PropSkipEx.C47_append_refuted.
Print Assumptions PropSkipEx.C47_append_monaa_refuted.
Print Assumptions PropTextEx.C47_labels.
Print Assumptions PropTextEx.C47_label_refuted.
Print Assumptions PropEps.C48_same.
Print Assumptions PropSignal.C49_conjunction_never_returns.
Print Assumptions PropSignal.C49_terminates_refuted.
Print Assumptions PropSignal.C49_terminates_partial.
Print Assumptions PropModes.C50_complete_partial.
Print Assumptions PropModesEx.C50_lost_states_refuted.
Print Assumptions PropModesEx.C50_complete_refuted.
Print Assumptions PropTre.C51_states_partial.
Print Assumptions PropTre.C51_unreachable_refuted.
Print Assumptions PropTre.C51_dead_refuted.
Print Assumptions PropMore.C52_size.
Print Assumptions PropMore.C52_projection.
Print Assumptions PropMore.C52_not_canonical_refuted.
Print Assumptions PropMore.C52_case.
Print Assumptions PropMore.C53_kept.
Print Assumptions PropMore.C53_meaning.
Print Assumptions PropText.C54_meaning.
Print Assumptions PropFresh.C55_flags_lost.
Print Assumptions PropFresh.C55_flags_refuted.
Print Assumptions PropText.C55_round_trip.
Print Assumptions PropText.C55_null_refuted.
Print Assumptions PropText.C55_case.
Print Assumptions PropText.C56_sound.
Print Assumptions PropText.C56_count.
Print Assumptions PropText.C56_case.
Print Assumptions PropEps.C57_sound.
Print Assumptions PropEps.C57_nonempty.
Print Assumptions PropEps.C58_terminates_partial.
Print Assumptions PropEpsEx.C58_terminates_refuted.
Print Assumptions PropEps.C59_examined_partial.
Print Assumptions PropEpsEx.C59_complete_refuted.
Print Assumptions PropEpsEx.C60_second_call_refuted.
Print Assumptions PropEpsEx.C60_guard_refuted.
Print Assumptions PropStaticVec.C60_no_more_clocks_partial.
Print Assumptions PropStaticVec.C60_observable_partial.
Print Assumptions PropSignal.C61_separation_is_dead.
Print Assumptions PropSignal.C62_aliasing_accepts_refuted.
Print Assumptions PropSignal.C62_aliasing_misses_refuted.
Print Assumptions PropSignal.C62_within_sequence_accepts_refuted.
Print Assumptions PropSignal.C62_within_sequence_misses_refuted.
Print Assumptions PropSignal.C62_plus_refuted.
Print Assumptions PropSignal2.C62_words_partial.
Print Assumptions PropSignal2.C62_signals_partial.
Print Assumptions PropSignal2.C62_exact_partial.
Print Assumptions PropSignal7.C62_restriction.
Print Assumptions PropSignal8.C62_empty_plus_refuted.
Print Assumptions PropSignal.C63_empty_refuted.
Print Assumptions PropSignal.C63_plus_refuted.
Print Assumptions PropSignal.C63_within_infinite_refuted.
Print Assumptions PropSignal2.C63_returns_partial.
Print Assumptions PropSignal8.C63_plus_undefined.
Print Assumptions PropSignal8.C63_plus_nothing.
Print Assumptions PropParse.C64_sound.
Print Assumptions PropParse.C64_complete.
Print Assumptions PropParse.C64_errors.
Print Assumptions PropParse.C64_decides.
Print Assumptions PropParse.C64_number_refuted.
Print Assumptions PropParse.C64_letters.
Print Assumptions PropParse.C64_blank_refuted.
Print Assumptions PropParse.C65_precedence_refuted.
Print Assumptions PropParse.C65_conjunction_refuted.
Print Assumptions PropParse.C65_usual_partial.
Print Assumptions PropParse.C65_exact.
Print Assumptions PropParse.C65_spelling_independent.
Print Assumptions PropParse.C66_parenthesised.
Print Assumptions PropMain.C67_version.
Print Assumptions PropMain.C67_usage.
Print Assumptions PropMain.C67_option_error.
Print Assumptions PropMain.C67_parse_error.
Print Assumptions PropMain.C67_word_file.
Print Assumptions PropMain.C67_statuses.
Print Assumptions PropMain.C67_status_refuted.
Print Assumptions PropMain.C67_missing_pattern_refuted.
Print Assumptions PropMain.C67_guard_error_refuted.
Print Assumptions PropExact.C68_exact_partial.
Print Assumptions PropExact.C68_rising_partial.
Print Assumptions PropExact.C68_iff_partial.
Print Assumptions PropMain.C68_sound.
Print Assumptions PropMain.C68_meant_partial.
Print Assumptions PropMain.C68_no_dollar.
Print Assumptions PropMain.C68_complete_partial.
Print Assumptions PropMain.C68_documented_conjunction_refuted.
Print Assumptions PropMain.C68_documented_without_dollar_refuted.
Print Assumptions PropMissed.C68_missed_refuted.
Print Assumptions PropStart.C68_rising_iff_partial.
Print Assumptions PropStart.C68_until_last.
Print Assumptions PropStart.C68_order_refuted.
Print Assumptions PropStart.C68_silence_refuted.
Print Assumptions PropMain.C69_language_partial.
Print Assumptions PropMain.C69_statuses.
Print Assumptions PropTextEx.C69_nested_star_refuted.
Print Assumptions PropSignal3.C70_sound_partial.
Print Assumptions PropSignal3.C70_complete_partial.
Print Assumptions PropSignal3.C70_printed_partial.
Print Assumptions PropSignal3.C70_found_partial.
Print Assumptions PropSignal4.C70_missed_refuted.
Print Assumptions PropFresh.C71_flags.
Print Assumptions PropInterSig.C71_common_words_partial.
Print Assumptions PropInterSig.C71_complete_partial.
Print Assumptions PropInterSig.C71_sound_partial.
Print Assumptions PropInterSig.C71_sound_refuted.
Print Assumptions PropInterSig.C71_complete_refuted.
Print Assumptions PropInterSig.C71_flags_refuted.
Print Assumptions PropInterSig.C71_overflow_refuted.
Print Assumptions PropInterSig.C71_unobservable_refuted.
Print Assumptions PropEvent.C72_event_returns_partial.
Print Assumptions PropEvent.C72_waiting_loop_refuted.
Print Assumptions PropTerm.C72_returns_partial.
Print Assumptions PropTerm.C72_returns_signal_partial.
Print Assumptions PropTerm.C72_returns_optional_partial.
Print Assumptions PropTerm.C72_cycle_never_returns.
Print Assumptions PropTerm.C72_returns_refuted.
Print Assumptions PropTerm.C72_unobservable_refuted.
Print Assumptions PropFresh.C73_zero.
Print Assumptions PropFresh.C73_universal.
Print Assumptions PropFresh.C73_forgets.
Print Assumptions PropFresh.C73_cache.
Print Assumptions PropRename.C74_words.
Print Assumptions PropRename.C74_final.
Print Assumptions PropRename.C74_none_lost.
Print Assumptions PropRename.C74_none_lost_refuted.
Print Assumptions PropStatic.C74_before.
Print Assumptions PropStatic.C75_first_call.
Print Assumptions PropStatic.C75_flags.
Print Assumptions PropStatic.C75_later_call_refuted.
Print Assumptions RenameAny.C75_any_map.
Print Assumptions PropReal.C76_paths.
Print Assumptions PropReal.C76_untimed.
Print Assumptions PropReal.C76_empty_iff.
Print Assumptions PropReal.C76_zero_refuted.
Print Assumptions PropEmpty.C77_message_partial.
Print Assumptions PropSignal6.C77_signal_partial.
Print Assumptions PropSignal6.C77_signal_exact_partial.
Print Assumptions PropSignal6.C77_zero_refuted.
Print Assumptions PropSignal5.C78_returns_partial.
Print Assumptions PropSignal5.C78_twice_refuted.
Print Assumptions PropBin.C79_converted.
Print Assumptions PropBin.C79_exact.
Print Assumptions PropBin.C79_without_number.
Print Assumptions PropBin.C79_binary_refuted.
Print Assumptions PropBin.C79_never_refuted.
Print Assumptions PropBin.C79_overflow_refuted.
Print Assumptions PropBin.C79_number_refuted.
Print Assumptions PropBin.C79_files.
Print Assumptions PropBin.C79_no_events_refuted.
Print Assumptions PropBin.C79_options.
Print Assumptions PropBin.C79_malformed_refuted.
Print Assumptions PropBin.C79_missing.
Print Assumptions PropBin.C79_same_file_refuted.
Print Assumptions PropBin.C79_created_refuted.
Print Assumptions PropDouble.C79_records.
Print Assumptions PropDouble.C79_rounded.
Print Assumptions PropPrint.C80_read.
Print Assumptions PropPrint.C80_printed.
Print Assumptions PropPrint.C80_exact.
Print Assumptions PropPrintMain.C80_reports.
Print Assumptions PropPrintMain.C80_text_partial.
Print Assumptions PropPrintMain.C80_digits_refuted.
Print Assumptions PropPrintSignal.C80_signal_partial.
Print Assumptions PropPrintSignal.C80_segments_partial.
Print Assumptions PropOnline.C81_same.
Print Assumptions PropOnline.C81_same_signal.
Print Assumptions PropOnline.C81_same_optional.
Print Assumptions PropOnline.C81_causal.
Print Assumptions PropOnline.C81_causal_signal.
Print Assumptions PropOnline.C81_causal_optional.
Print Assumptions PropOnline.C81_kept.
Print Assumptions PropOnline.C81_final.
Print Assumptions PropOnline.C81_prompt_refuted.
Print Assumptions PropOnlineEps.C81_same_eps.
Print Assumptions PropOnlineEps.C81_causal_eps.
Print Assumptions PropOnlineEps.C81_kept_eps.
Print Assumptions PropOnlineEps.C81_final_eps.
Print Assumptions PropBinary.C82_double.
Print Assumptions PropBinary.C82_text.
Print Assumptions PropBinary.C82_same.
Print Assumptions PropBinary.C82_run.
Print Assumptions PropDouble.C82_range.
Print Assumptions PropDouble.C82_kept.
Print Assumptions PropDouble.C82_enc.
Print Assumptions PropStream.C83_text.
Print Assumptions PropStream.C83_binary.
Print Assumptions PropStream.C83_main.
Print Assumptions PropStream.C83_vector.
Print Assumptions PropStream.C83_vector_refuted.
Print Assumptions PropStream.C83_kept.
Print Assumptions PropStream.C83_available.
Print Assumptions PropStream.C83_arrived.
Print Assumptions PropStream.C83_lag_refuted.
Print Assumptions PropStream.C83_record.
Print Assumptions PropUnused.C84_update.
Print Assumptions PropUnused.C84_valid.
Print Assumptions PropUnused.C84_together_refuted.
Print Assumptions PropUnused.C84_maker.
Print Assumptions PropUnused.C84_unreachable_undefined.
Print Assumptions PropUnused.C84_unreachable_nothing.
Print Assumptions PropUnused.C84_unreachable_refuted.
Print Assumptions PropUnused.C84_unreachable_inverted.
Print Assumptions PropRound.C85_exact.
Print Assumptions PropRound.C85_nearest.
Print Assumptions PropRound.C85_rnd64.
Print Assumptions PropRound.C85_direction.
Print Assumptions PropRound.C85_sound.
Print Assumptions PropRound.C85_all_doubles_refuted.
Print Assumptions PropRound.C85_decimal_refuted.
Print Assumptions PropRoundZone.C86_tighten.
Print Assumptions PropRoundZone.C86_canonize.
Print Assumptions PropRoundZone.C86_satisfiable.
Print Assumptions PropRoundZone.C86_succ.
Print Assumptions PropRoundZone.C86_large_refuted.
