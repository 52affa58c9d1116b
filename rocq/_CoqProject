-Q theories Verif
theories/Text.v
theories/Utf8.v
theories/Lossy.v
theories/Res.v
theories/Lexer.v
theories/Ast.v
theories/Parser.v
theories/Spec_grammar.v
theories/Spec_tree.v
theories/Spec_tokens.v
theories/Spec_print.v
theories/Debug.v
theories/Format.v
theories/Proofs_text.v
theories/Proofs_lexer.v
theories/Proofs_token.v
theories/Proofs_ast.v
theories/Proofs_parser.v
theories/Spec_syntax.v
theories/Proofs_syntax.v
theories/Proofs_pos.v
theories/Proofs_comments.v
theories/Proofs_print.v
theories/Proofs_plain.v
theories/Proofs_unescape.v
theories/Proofs_fields.v
theories/Properties_parser.v
theories/Properties_syntax.v
theories/Spec_markup.v
theories/Spec_output.v
theories/Proofs_markup.v
theories/Proofs_css.v
theories/Spec_css.v
theories/Proofs_white.v
theories/Proofs_utf8.v
theories/Proofs_sheet.v
theories/Proofs_output.v
theories/Proofs_pre.v
theories/Properties_format.v
theories/Properties_css.v
theories/Scope.v
theories/Args.v
theories/Numbers.v
theories/Paths.v
theories/Env.v
theories/State.v
theories/Bind.v
theories/Data.v
theories/Sorting.v
theories/Expander.v
theories/Spec_expand.v
theories/Proofs_run.v
theories/Proofs_eval.v
theories/Spec_args.v
theories/Proofs_args.v
theories/Spec_builtin.v
theories/Proofs_builtin.v
theories/Proofs_simple.v
theories/Spec_bind.v
theories/Proofs_bind.v
theories/Spec_control.v
theories/Proofs_control.v
theories/Proofs_more.v
theories/Proofs_get.v
theories/Spec_sort.v
theories/Proofs_sort.v
theories/Spec_scope.v
theories/Proofs_scope.v
theories/Proofs_macros.v
theories/Proofs_extra.v
theories/Spec_errors.v
theories/Proofs_errors.v
theories/Proofs_outcomes.v
theories/Spec_keep.v
theories/Proofs_keep.v
theories/Proofs_kept.v
theories/Spec_data.v
theories/Proofs_data.v
theories/Spec_events.v
theories/Proofs_events.v
theories/Spec_world.v
theories/Proofs_collect.v
theories/Proofs_world.v
theories/Proofs_import.v
theories/Proofs_stream.v
theories/Proofs_names.v
theories/Conformance.v
theories/Runs.v
theories/Properties_macros.v
theories/Properties_builtins.v
theories/Properties_errors.v
theories/Proofs_env0.v
theories/Properties_state.v
theories/Properties_data.v
theories/Spec_panic.v
theories/Proofs_panic.v
theories/Properties_panic.v
theories/Cli.v
theories/Spec_cli.v
theories/Proofs_cli.v
theories/Properties_cli.v
theories/Spec_loop.v
theories/Proofs_loop.v
theories/Properties_loop.v
theories/Spec_order.v
theories/Proofs_sim.v
theories/Proofs_order.v
theories/Properties_order.v
theories/Report.v
theories/Spec_report.v
theories/Proofs_report.v
theories/Proofs_genfail.v
theories/Properties_report.v
theories/Schema.v
theories/Spec_schema.v
theories/Proofs_schema.v
theories/Properties_schema.v
theories/Spec_text.v
theories/Proofs_textual.v
theories/Proofs_paths.v
theories/Properties_text.v
theories/Spec_halt.v
theories/Proofs_halt.v
theories/Properties_halt.v
theories/Spec_lang.v
theories/Proofs_strict.v
theories/Proofs_lang.v
theories/Proofs_realise.v
theories/Proofs_complete.v
theories/Proofs_meaning.v
theories/Properties_lang.v
theories/Spec_element.v
theories/Proofs_element.v
theories/Proofs_html.v
theories/Properties_markup.v
theories/Spec_place.v
theories/Proofs_place.v
theories/Properties_place.v
theories/Spec_seam.v
theories/Proofs_seam.v
theories/Properties_seam.v
theories/Spec_moved.v
theories/Proofs_moved.v
theories/Proofs_moved_out.v
theories/Proofs_reworded.v
theories/Properties_moved.v
theories/Spec_final.v
theories/Proofs_final.v
theories/Proofs_reprint.v
theories/Properties_final.v
theories/Spec_lossy.v
theories/Proofs_lossy.v
theories/Proofs_glob.v
theories/Properties_lossy.v
theories/Spec_power.v
theories/Proofs_power.v
theories/Properties_power.v
theories/Spec_dead.v
theories/Proofs_dead.v
theories/Properties_dead.v
theories/Spec_swap.v
theories/Proofs_swap.v
theories/Properties_swap.v
theories/Spec_live.v
theories/Proofs_live.v
theories/Properties_live.v
theories/Spec_growth.v
theories/Proofs_growth.v
theories/Properties_growth.v
theories/Spec_machine.v
theories/Proofs_machine.v
theories/Properties_machine.v
theories/Spec_depth.v
theories/Proofs_depth.v
theories/Properties_depth.v
theories/Proofs_hash.v
theories/Properties_hash.v
theories/Spec_sequence.v
theories/Proofs_sequence.v
theories/Properties_sequence.v
theories/Spec_joined.v
theories/Proofs_joined.v
theories/Proofs_joined_run.v
theories/Properties_joined.v
