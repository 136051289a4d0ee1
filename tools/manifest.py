#!/usr/bin/env python3
"""Writes MANIFEST.json and checks that every named theorem exists in the sources."""
import json, re, glob, sys, os
root = os.path.dirname(os.path.dirname(os.path.abspath(__file__)))
P, A, N = "proved", "partial", "not_applicable"
claims = [
 ("C01", P, ["C01_lexer_terminates"], ""),
 ("C02", P, ["C02_lossless"], ""),
 ("C03", P, ["C03_positions"], "holds with and without lexical errors"),
 ("C04", P, ["C04_indices"], ""),
 ("C05", P, ["C05_kinds"], ""),
 ("C06", P, ["C06_lexer_never_panics_refuted", "C06_crash_condition"],
  "the property is false; refuted, with the exact crash condition for lexically correct sources"),
 ("C07", P, ["C07_ascii_never_panics", "C07_correct_sources_never_panic"], ""),
 ("C08", P, ["C08_comment_delimiters_refuted", "C08_block_comments"],
  "the property is false for the spelling /*/ ; the true form is proved"),
 ("C09", P, ["C09_exponent_digits_refuted", "C09_numbers"],
  "the property is false for 1e; the true form is proved"),
 ("C10", P, ["C10_errors_iff", "C10_items_unique"], ""),
 ("C11", P, ["C11_parser_terminates", "C11_parse_terminates"], ""),
 ("C12", P, ["C12_parse_never_panics_refuted", "C12_crash_kinds"],
  "the property is false; the two possible crashes of the parser stage are identified"),
 ("C13", P, ["C13_guard_never_rejects"], "34 lookups suffice"),
 ("C14", P, ["C14_events_nested", "C14_tree_buildable"], ""),
 ("C15", P, ["C15_leaves"], ""),
 ("C16", P, ["C16_accepted_conforms", "C16_entry_conforms"], ""),
 ("C17", P, ["C17_kinds_only", "C17_layout_irrelevant"], ""),
 ("C18", P, ["C18_error_positions", "C18_rendered"], ""),
 ("C19", P, ["C19_completeness_refuted", "C60_accepts_exactly", "C62_published_accepted"], "the property is false; witness: equation initial() = 1; the true form is C60/C62"),
 ("C20", P, ["C20_never_crashes"], ""),
 ("C21", P, ["C21_tokens_preserved"], ""),
 ("C22", P, ["C22_relex_refuted", "C22_relex"],
  "the property is false for a carriage return without line feed after a line comment; proved for all sources without lone carriage returns"),
 ("C23", P, ["C23_reparse_refuted", "C23_reparse", "C23_same_tree"],
  "false for a lone carriage return after a line comment (the formatted file even crashes the tool); proved for all other sources"),
 ("C24", P, ["C24_comments_in_place"], ""),
 ("C25", P, ["C25_no_comment_lost_refuted"], "the property is false; see C26 for exactly which comments survive"),
 ("C26", P, ["C26_survival"], ""),
 ("C27", P, ["C27_indent_nonnegative"], ""),
 ("C28", P, ["C28_balanced_refuted", "C28_balance"], "the property is false; proved: the level at the end is the number of wrapped left-hand sides"),
 ("C29", P, ["C29_no_trailing_space"], "white space inside comments and strings is not produced by the formatter"),
 ("C30", P, ["C30_one_blank_line"], ""),
 ("C31", P, ["C31_lines_only", "C31_horizontal_space", "C31_respaced_iff"],
  "horizontal means: everything but line feeds; white space at the end of the file does not matter either"),
 ("C32", P, ["C32_idempotent_refuted"], "the property is false; C57 is the true form"),
 ("C33", P, ["C33_separators"], ""),
 ("C34", P, ["C34_infix", "C34_signs"], ""),
 ("C35", P, ["C35_sections"], "the blank line is above the comments that precede the word, if any"),
 ("C36", P, ["C36_blank_lines"], ""),
 ("C37", P, ["C37_all_or_nothing"], "also for component lists, import lists, for indices and rows of matrices"),
 ("C38", P, ["C38_check_modifies_nothing"], "interruption: every prefix of the trace of effects"),
 ("C39", P, ["C39_only_correct_files_written", "C39_others_unchanged", "C39_complete_contents"], ""),
 ("C40", P, ["C40_exit_code"], "code 0 for files in order needs distinct files in formatting mode, since a file given twice is formatted twice"),
 ("C41", P, ["C41_search"], "the search ends exactly if the directory tree is well-founded (no cycle of links)"),
 ("C42", P, ["C42_interrupted_write_refuted", "C39_only_correct_files_written", "C39_complete_contents"], "the property is false; what is left is proved under C39"),
 ("C43", P, ["C43_one_bad_file_refuted", "C43_others_formatted"], "the property is false for a file on which the parser panics; proved for runs that end with an exit code"),
 ("C44", P, ["C44_format_then_check_refuted", "C44_passes_iff_stable"], "the property is false; the exact condition is proved"),
 ("C45", P, ["C45_options"], ""),
 ("C50", P, ["C50_check_reports"], ""),
 ("C51", P, ["C51_passed_unchanged"], ""),
 ("C46", P, ["C16_other_entries_refuted"], "the property is false; witness: entry ImportList, source a,"),
 ("C47", P, ["C16_published_grammar_refuted"], "the property is false; witness: equation 1;"),
 ("C48", P, ["C48_brackets"], ""),
 ("C49", P, ["C49_lines"], ""),
 ("C52", P, ["C52_operators"], ""),
 ("C53", P, ["C53_wrapping"], "the conditions are stated on the source lines of the tokens (SpecNodes.wrapped)"),
 ("C54", P, ["C54_every_outer_list_refuted", "C54_nesting"], "the property is false for lists of results; proved for all other lists"),
 ("C55", P, ["C55_spaces"], "what follows a sign is stated by C34_signs and C52_operators"),
 ("C56", P, ["C56_reference"], "the reference formatter is SpecReference.reference"),
 ("C57", P, ["C57_twice"], "assumes that every carriage return is followed by a line feed; without it the formatted text need not be accepted (C23_reparse_refuted)"),
 ("C58", P, ["C58_check_after_two"], "same assumption on carriage returns; no faults of the file system"),
 ("C59", P, ["C59_lines_stay"], "same assumption on carriage returns"),
 ("C60", P, ["C60_accepts_exactly", "C60_finds_tree"], "the true form of C19"),
 ("C61", P, ["C61_unambiguous"], ""),
 ("C62", P, ["C62_published_accepted"], ""),
 ("C63", P, ["C63_utf8"], "the conversions of the Rust standard library are modelled and proved against RFC 3629"),
 ("C64", P, ["C64_no_new_characters"], ""),
 ("C65", P, ["C65_not_utf8"], "contradicts the README, which says that the tool panics"),
 ("C66", P, ["C66_foreign_characters", "C66_byte_order_mark"], ""),
 ("C67", P, ["C67_first_error"], "at the end of the tokens the error is at the last token; one token of lookahead is necessary, see C67_one_more"),
 ("C68", P, ["C68_expected"], "errors at the end of the file are excluded from the claim because it fails there, see C68_at_end"),
 ("C69", P, ["C69_blocks"], "for nodes without a wrapped left-hand side (leak = 0), because those change the indentation, see C28"),
 ("C70", P, ["C70_classes"], "same condition"),
 ("C71", P, ["C71_trailing"], "same condition"),
 ("C72", P, ["C72_operators"], "same condition"),
 ("C73", P, ["C73_lists", "C73_components"], "same condition where a level is given; for function f(...) see the example C73_application"),
 ("C74", P, ["C74_comments"], "for the layouts of FmtNeat.layout_of, whose rendering is the output; comments that are lost are not in the layout, see C26"),
 ("C75", P, ["C75_start", "C75_end"], "the line ending behind the semicolon is added by process in Cli.v, see C39"),
 ("C76", P, ["C76_retold", "C76_retold_iff"], "the second text may make the parser panic (C06), which is excluded by a hypothesis"),
 ("C77", P, ["C77_joined"], "the condition on wrapped left-hand sides is leak tree = 0; C77_leaks shows that it is needed"),
 ("C78", P, ["C78_pieces", "C78_lex"], "the pieces of SpecPieces; the order of the errors and of the tokens is that of the text; C78_crash shows the crash"),
 ("C79", P, ["C79_format_reports"], "the text of operating system errors is a parameter (w_oserr)"),
 ("C80", P, ["C80_errors_explained"], "for runs that end (C12 says which do not); the five endings are listed in SpecRecover"),
 ("C81", P, ["C81_guard_stops_endless_runs_refuted", "C81_guard_changes_nothing"], "false as expected; the second theorem is the true part"),
 ("C82", P, ["C82_windows", "C82_same"], "C82_names_needed shows that quoted identifiers must be excluded"),
 ("C83", P, ["C83_once"], "same assumption on carriage returns; C83_comments_needed shows that the condition on comments is needed"),
 ("C84", P, ["C84_vertical", "C84_same", "C84_revised_iff"], "stated with the specification of lexemes of C02; C84_revised_iff says in terms of the tokens when it applies"),
 ("C85", P, ["C85_lists_refuted", "C85_linear", "C85_accepted"], "expectation refuted for every length of list; the linear bounds are the true form; runs that panic have no event list and are not covered"),
 ("C86", P, ["C86_local"], "levels of indentation leaked by wrapped left-hand sides inside the nodes are included; parts of expressions and lists are left out, see C72 and C53"),
 ("C87", P, ["C87_nested", "C87_indented"], "trailing comments of the file are excluded since they are lost alone but kept in front of `end`; a wrapped left-hand side would indent the end of the package, see C28"),
 ("C88", P, ["C88_sources", "C88_single", "C88_refuted"], "C88_sources has both directions for automatic empty lines; the expectation about the source fails for comments of several lines behind code (C88_refuted) and holds without them (C88_single)"),
 ("C89", P, ["C89_code", "C89_wiped"], "C89_code compares any two accepted files with the same kinds of tokens and line breaks at the same places; comments in front of `within` move it to a line of its own (example C89_within)"),
 ("C90", P, ["C90_order", "C90_check", "C90_split"], "for worlds without failing system calls; a run that does not end with an exit code (panic, endless recursion) is not compared"),
 ("C91", P, ["C91_exactly", "C91_needed", "C91_check_after_one"], "strengthens C83 to an equivalence with a condition on the source alone; C91_needed does without the condition on comments, which is needed for the other direction (C83_comments_needed)"),
 ("C92", P, ["C92_behind", "C92_own", "C92_behind_text", "C92_own_text"], "C92_behind and C92_own compare the layouts entry by entry and say at which token; the _text theorems give the formatted texts; the extra empty line in front of descriptions and the like is shown by C92_empty_line; comments in front of the first token are excluded (see C75, C89)"),
 ("C93", P, ["C93_exactly", "C93_text", "C93_check_after_one"], "C91 without the condition on comments: `hanging` says exactly which comments make the second run add an empty line"),
 ("C94", P, ["C94_more", "C94_least"], "only the kinds of the tokens have to agree, and whether a token spans lines; empty lines and indentation are not compared"),
 ("C95", P, ["C95_places", "C95_linear"], "the guard of 100 lookups counts two lookups for every error that does not consume a token; the factors (51 and 607) are not claimed to be the best"),
 ("C96", P, ["C96_levels", "C96_size", "C96_quadratic", "C96_lines", "C96_packages", "C96_not_linear"], "lengths are numbers of characters; the line ending is not empty"),
 ("C97", P, ["C97_prefix", "C97_tight"], "for pairs of texts on which the parser returns; if the guard of C81 stops one of the runs there are no messages to compare"),
 ("C98", P, ["C98_parts", "C98_order"], "the conditions on ends and beginnings are those of C77, which is the step of the induction"),
 ("C99", P, ["C99_free"], "sufficient condition; C99_matters shows one pair of texts for each of its parts"),
 ("C100", P, ["C100_replace","C100_output"], "C100_leak and C100_parting show why two of the conditions are needed"),
 ("C101", P, ["C101_insert","C101_output","C101_delete"], "C101_leak shows why the condition on left-hand sides is needed"),
 ("C102", P, ["C102_contents","C102_twice_is_enough","C102_check_passes","C102_check_after_two","C102_succeeds"], ""),
 ("C103", P, ["C103_replace","C103_output"], ""),
 ("C104", P, ["C104_copy","C104_text"], ""),
 ("C105", P, ["C105_exchange","C105_text"], ""),
 ("C106", P, ["C106_where_it_stops","C106_exactly_when","C106_endless_search"], ""),
 ("C107", P, ["C107_insert","C107_text","C107_delete"], ""),
 ("C108", P, ["C108_gap","C108_text","C108_blank"], ""),
 ("C109", P, ["C109_exactly","C109_code","C109_files","C109_code_refuted"], "as stated; C109_code_refuted shows that the condition on carriage returns is needed"),
 ("C110", P, ["C110_alone","C110_beside","C110_checks","C110_kept","C110_ends","C110_same_file_refuted","C110_false_alarm_refuted"], ""),
 ("C111", P, ["C111_contents","C111_settled","C111_order","C111_check"], ""),
 ("C112", P, ["C112_exactly","C112_first_fault","C112_check"], ""),
 ("C113", P, ["C113_between","C113_settled"], ""),
 ("C114", P, ["C114_tree","C114_events"], ""),
 ("C115", P, ["C115_parts","C115_relex","C115_no_crash_refuted"], "that a text read without errors is always formatted is false for other entry rules; C115_no_crash_refuted gives two such texts"),
 ("C116", P, ["C116_finds_tree","C116_unambiguous","C116_round_trip","C116_output_list_refuted"], "false for the list of outputs, see C116_output_list_refuted"),
 ("C117", P, ["C117_reference"], ""),
 ("C118", P, ["C118_cut"], ""),
 ("C119", P, ["C119_clean"], ""),
 ("C120", P, ["C120_twice"], ""),
 ("C121", P, ["C121_excised"], ""),
]
src = "".join(open(f).read() for f in glob.glob(root + "/rocq/theories/*.v"))
names = set(re.findall(r"^(?:Theorem|Lemma|Example)\s+(\w+)", src, re.M))
bad = [t for c in claims for t in c[2] if t not in names]
if bad:
    sys.exit("missing theorems: %s" % bad)
ids = [json.loads(l)["id"] for l in open(root + "/properties.jsonl")]
out = [dict(property=c[0], status=c[1], theorems=c[2], note=c[3]) for c in claims]
missing = [i for i in ids if i not in [c[0] for c in claims]]
out += [dict(property=i, status=A, theorems=[], note="not yet proved") for i in missing]
json.dump({"claims": out}, open(root + "/MANIFEST.json", "w"), indent=1)
print("missing:", missing)
