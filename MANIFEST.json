{
 "claims": [
  {
   "property": "C01",
   "status": "proved",
   "theorems": [
    "C01_lexer_terminates"
   ],
   "note": ""
  },
  {
   "property": "C02",
   "status": "proved",
   "theorems": [
    "C02_lossless"
   ],
   "note": ""
  },
  {
   "property": "C03",
   "status": "proved",
   "theorems": [
    "C03_positions"
   ],
   "note": "holds with and without lexical errors"
  },
  {
   "property": "C04",
   "status": "proved",
   "theorems": [
    "C04_indices"
   ],
   "note": ""
  },
  {
   "property": "C05",
   "status": "proved",
   "theorems": [
    "C05_kinds"
   ],
   "note": ""
  },
  {
   "property": "C06",
   "status": "proved",
   "theorems": [
    "C06_lexer_never_panics_refuted",
    "C06_crash_condition"
   ],
   "note": "the property is false; refuted, with the exact crash condition for lexically correct sources"
  },
  {
   "property": "C07",
   "status": "proved",
   "theorems": [
    "C07_ascii_never_panics",
    "C07_correct_sources_never_panic"
   ],
   "note": ""
  },
  {
   "property": "C08",
   "status": "proved",
   "theorems": [
    "C08_comment_delimiters_refuted",
    "C08_block_comments"
   ],
   "note": "the property is false for the spelling /*/ ; the true form is proved"
  },
  {
   "property": "C09",
   "status": "proved",
   "theorems": [
    "C09_exponent_digits_refuted",
    "C09_numbers"
   ],
   "note": "the property is false for 1e; the true form is proved"
  },
  {
   "property": "C10",
   "status": "proved",
   "theorems": [
    "C10_errors_iff",
    "C10_items_unique"
   ],
   "note": ""
  },
  {
   "property": "C11",
   "status": "proved",
   "theorems": [
    "C11_parser_terminates",
    "C11_parse_terminates"
   ],
   "note": ""
  },
  {
   "property": "C12",
   "status": "proved",
   "theorems": [
    "C12_parse_never_panics_refuted",
    "C12_crash_kinds"
   ],
   "note": "the property is false; the two possible crashes of the parser stage are identified"
  },
  {
   "property": "C13",
   "status": "proved",
   "theorems": [
    "C13_guard_never_rejects"
   ],
   "note": "34 lookups suffice"
  },
  {
   "property": "C14",
   "status": "proved",
   "theorems": [
    "C14_events_nested",
    "C14_tree_buildable"
   ],
   "note": ""
  },
  {
   "property": "C15",
   "status": "proved",
   "theorems": [
    "C15_leaves"
   ],
   "note": ""
  },
  {
   "property": "C16",
   "status": "proved",
   "theorems": [
    "C16_accepted_conforms",
    "C16_entry_conforms"
   ],
   "note": ""
  },
  {
   "property": "C17",
   "status": "proved",
   "theorems": [
    "C17_kinds_only",
    "C17_layout_irrelevant"
   ],
   "note": ""
  },
  {
   "property": "C18",
   "status": "proved",
   "theorems": [
    "C18_error_positions",
    "C18_rendered"
   ],
   "note": ""
  },
  {
   "property": "C19",
   "status": "proved",
   "theorems": [
    "C19_completeness_refuted",
    "C60_accepts_exactly",
    "C62_published_accepted"
   ],
   "note": "the property is false; witness: equation initial() = 1; the true form is C60/C62"
  },
  {
   "property": "C20",
   "status": "proved",
   "theorems": [
    "C20_never_crashes"
   ],
   "note": ""
  },
  {
   "property": "C21",
   "status": "proved",
   "theorems": [
    "C21_tokens_preserved"
   ],
   "note": ""
  },
  {
   "property": "C22",
   "status": "proved",
   "theorems": [
    "C22_relex_refuted",
    "C22_relex"
   ],
   "note": "the property is false for a carriage return without line feed after a line comment; proved for all sources without lone carriage returns"
  },
  {
   "property": "C23",
   "status": "proved",
   "theorems": [
    "C23_reparse_refuted",
    "C23_reparse",
    "C23_same_tree"
   ],
   "note": "false for a lone carriage return after a line comment (the formatted file even crashes the tool); proved for all other sources"
  },
  {
   "property": "C24",
   "status": "proved",
   "theorems": [
    "C24_comments_in_place"
   ],
   "note": ""
  },
  {
   "property": "C25",
   "status": "proved",
   "theorems": [
    "C25_no_comment_lost_refuted"
   ],
   "note": "the property is false; see C26 for exactly which comments survive"
  },
  {
   "property": "C26",
   "status": "proved",
   "theorems": [
    "C26_survival"
   ],
   "note": ""
  },
  {
   "property": "C27",
   "status": "proved",
   "theorems": [
    "C27_indent_nonnegative"
   ],
   "note": ""
  },
  {
   "property": "C28",
   "status": "proved",
   "theorems": [
    "C28_balanced_refuted",
    "C28_balance"
   ],
   "note": "the property is false; proved: the level at the end is the number of wrapped left-hand sides"
  },
  {
   "property": "C29",
   "status": "proved",
   "theorems": [
    "C29_no_trailing_space"
   ],
   "note": "white space inside comments and strings is not produced by the formatter"
  },
  {
   "property": "C30",
   "status": "proved",
   "theorems": [
    "C30_one_blank_line"
   ],
   "note": ""
  },
  {
   "property": "C31",
   "status": "proved",
   "theorems": [
    "C31_lines_only",
    "C31_horizontal_space",
    "C31_respaced_iff"
   ],
   "note": "horizontal means: everything but line feeds; white space at the end of the file does not matter either"
  },
  {
   "property": "C32",
   "status": "proved",
   "theorems": [
    "C32_idempotent_refuted"
   ],
   "note": "the property is false; C57 is the true form"
  },
  {
   "property": "C33",
   "status": "proved",
   "theorems": [
    "C33_separators"
   ],
   "note": ""
  },
  {
   "property": "C34",
   "status": "proved",
   "theorems": [
    "C34_infix",
    "C34_signs"
   ],
   "note": ""
  },
  {
   "property": "C35",
   "status": "proved",
   "theorems": [
    "C35_sections"
   ],
   "note": "the blank line is above the comments that precede the word, if any"
  },
  {
   "property": "C36",
   "status": "proved",
   "theorems": [
    "C36_blank_lines"
   ],
   "note": ""
  },
  {
   "property": "C37",
   "status": "proved",
   "theorems": [
    "C37_all_or_nothing"
   ],
   "note": "also for component lists, import lists, for indices and rows of matrices"
  },
  {
   "property": "C38",
   "status": "proved",
   "theorems": [
    "C38_check_modifies_nothing"
   ],
   "note": "interruption: every prefix of the trace of effects"
  },
  {
   "property": "C39",
   "status": "proved",
   "theorems": [
    "C39_only_correct_files_written",
    "C39_others_unchanged",
    "C39_complete_contents"
   ],
   "note": ""
  },
  {
   "property": "C40",
   "status": "proved",
   "theorems": [
    "C40_exit_code"
   ],
   "note": "code 0 for files in order needs distinct files in formatting mode, since a file given twice is formatted twice"
  },
  {
   "property": "C41",
   "status": "proved",
   "theorems": [
    "C41_search"
   ],
   "note": "the search ends exactly if the directory tree is well-founded (no cycle of links)"
  },
  {
   "property": "C42",
   "status": "proved",
   "theorems": [
    "C42_interrupted_write_refuted",
    "C39_only_correct_files_written",
    "C39_complete_contents"
   ],
   "note": "the property is false; what is left is proved under C39"
  },
  {
   "property": "C43",
   "status": "proved",
   "theorems": [
    "C43_one_bad_file_refuted",
    "C43_others_formatted"
   ],
   "note": "the property is false for a file on which the parser panics; proved for runs that end with an exit code"
  },
  {
   "property": "C44",
   "status": "proved",
   "theorems": [
    "C44_format_then_check_refuted",
    "C44_passes_iff_stable"
   ],
   "note": "the property is false; the exact condition is proved"
  },
  {
   "property": "C45",
   "status": "proved",
   "theorems": [
    "C45_options"
   ],
   "note": ""
  },
  {
   "property": "C50",
   "status": "proved",
   "theorems": [
    "C50_check_reports"
   ],
   "note": ""
  },
  {
   "property": "C51",
   "status": "proved",
   "theorems": [
    "C51_passed_unchanged"
   ],
   "note": ""
  },
  {
   "property": "C46",
   "status": "proved",
   "theorems": [
    "C16_other_entries_refuted"
   ],
   "note": "the property is false; witness: entry ImportList, source a,"
  },
  {
   "property": "C47",
   "status": "proved",
   "theorems": [
    "C16_published_grammar_refuted"
   ],
   "note": "the property is false; witness: equation 1;"
  },
  {
   "property": "C48",
   "status": "proved",
   "theorems": [
    "C48_brackets"
   ],
   "note": ""
  },
  {
   "property": "C49",
   "status": "proved",
   "theorems": [
    "C49_lines"
   ],
   "note": ""
  },
  {
   "property": "C52",
   "status": "proved",
   "theorems": [
    "C52_operators"
   ],
   "note": ""
  },
  {
   "property": "C53",
   "status": "proved",
   "theorems": [
    "C53_wrapping"
   ],
   "note": "the conditions are stated on the source lines of the tokens (SpecNodes.wrapped)"
  },
  {
   "property": "C54",
   "status": "proved",
   "theorems": [
    "C54_every_outer_list_refuted",
    "C54_nesting"
   ],
   "note": "the property is false for lists of results; proved for all other lists"
  },
  {
   "property": "C55",
   "status": "proved",
   "theorems": [
    "C55_spaces"
   ],
   "note": "what follows a sign is stated by C34_signs and C52_operators"
  },
  {
   "property": "C56",
   "status": "proved",
   "theorems": [
    "C56_reference"
   ],
   "note": "the reference formatter is SpecReference.reference"
  },
  {
   "property": "C57",
   "status": "proved",
   "theorems": [
    "C57_twice"
   ],
   "note": "assumes that every carriage return is followed by a line feed; without it the formatted text need not be accepted (C23_reparse_refuted)"
  },
  {
   "property": "C58",
   "status": "proved",
   "theorems": [
    "C58_check_after_two"
   ],
   "note": "same assumption on carriage returns; no faults of the file system"
  },
  {
   "property": "C59",
   "status": "proved",
   "theorems": [
    "C59_lines_stay"
   ],
   "note": "same assumption on carriage returns"
  },
  {
   "property": "C60",
   "status": "proved",
   "theorems": [
    "C60_accepts_exactly",
    "C60_finds_tree"
   ],
   "note": "the true form of C19"
  },
  {
   "property": "C61",
   "status": "proved",
   "theorems": [
    "C61_unambiguous"
   ],
   "note": ""
  },
  {
   "property": "C62",
   "status": "proved",
   "theorems": [
    "C62_published_accepted"
   ],
   "note": ""
  },
  {
   "property": "C63",
   "status": "proved",
   "theorems": [
    "C63_utf8"
   ],
   "note": "the conversions of the Rust standard library are modelled and proved against RFC 3629"
  },
  {
   "property": "C64",
   "status": "proved",
   "theorems": [
    "C64_no_new_characters"
   ],
   "note": ""
  },
  {
   "property": "C65",
   "status": "proved",
   "theorems": [
    "C65_not_utf8"
   ],
   "note": "contradicts the README, which says that the tool panics"
  },
  {
   "property": "C66",
   "status": "proved",
   "theorems": [
    "C66_foreign_characters",
    "C66_byte_order_mark"
   ],
   "note": ""
  },
  {
   "property": "C67",
   "status": "proved",
   "theorems": [
    "C67_first_error"
   ],
   "note": "at the end of the tokens the error is at the last token; one token of lookahead is necessary, see C67_one_more"
  },
  {
   "property": "C68",
   "status": "proved",
   "theorems": [
    "C68_expected"
   ],
   "note": "errors at the end of the file are excluded from the claim because it fails there, see C68_at_end"
  },
  {
   "property": "C69",
   "status": "proved",
   "theorems": [
    "C69_blocks"
   ],
   "note": "for nodes without a wrapped left-hand side (leak = 0), because those change the indentation, see C28"
  },
  {
   "property": "C70",
   "status": "proved",
   "theorems": [
    "C70_classes"
   ],
   "note": "same condition"
  },
  {
   "property": "C71",
   "status": "proved",
   "theorems": [
    "C71_trailing"
   ],
   "note": "same condition"
  },
  {
   "property": "C72",
   "status": "proved",
   "theorems": [
    "C72_operators"
   ],
   "note": "same condition"
  },
  {
   "property": "C73",
   "status": "proved",
   "theorems": [
    "C73_lists",
    "C73_components"
   ],
   "note": "same condition where a level is given; for function f(...) see the example C73_application"
  },
  {
   "property": "C74",
   "status": "proved",
   "theorems": [
    "C74_comments"
   ],
   "note": "for the layouts of FmtNeat.layout_of, whose rendering is the output; comments that are lost are not in the layout, see C26"
  },
  {
   "property": "C75",
   "status": "proved",
   "theorems": [
    "C75_start",
    "C75_end"
   ],
   "note": "the line ending behind the semicolon is added by process in Cli.v, see C39"
  },
  {
   "property": "C76",
   "status": "proved",
   "theorems": [
    "C76_retold",
    "C76_retold_iff"
   ],
   "note": "the second text may make the parser panic (C06), which is excluded by a hypothesis"
  },
  {
   "property": "C77",
   "status": "proved",
   "theorems": [
    "C77_joined"
   ],
   "note": "the condition on wrapped left-hand sides is leak tree = 0; C77_leaks shows that it is needed"
  },
  {
   "property": "C78",
   "status": "proved",
   "theorems": [
    "C78_pieces",
    "C78_lex"
   ],
   "note": "the pieces of SpecPieces; the order of the errors and of the tokens is that of the text; C78_crash shows the crash"
  },
  {
   "property": "C79",
   "status": "proved",
   "theorems": [
    "C79_format_reports"
   ],
   "note": "the text of operating system errors is a parameter (w_oserr)"
  },
  {
   "property": "C80",
   "status": "proved",
   "theorems": [
    "C80_errors_explained"
   ],
   "note": "for runs that end (C12 says which do not); the five endings are listed in SpecRecover"
  },
  {
   "property": "C81",
   "status": "proved",
   "theorems": [
    "C81_guard_stops_endless_runs_refuted",
    "C81_guard_changes_nothing"
   ],
   "note": "false as expected; the second theorem is the true part"
  },
  {
   "property": "C82",
   "status": "proved",
   "theorems": [
    "C82_windows",
    "C82_same"
   ],
   "note": "C82_names_needed shows that quoted identifiers must be excluded"
  },
  {
   "property": "C83",
   "status": "proved",
   "theorems": [
    "C83_once"
   ],
   "note": "same assumption on carriage returns; C83_comments_needed shows that the condition on comments is needed"
  },
  {
   "property": "C84",
   "status": "proved",
   "theorems": [
    "C84_vertical",
    "C84_same",
    "C84_revised_iff"
   ],
   "note": "stated with the specification of lexemes of C02; C84_revised_iff says in terms of the tokens when it applies"
  },
  {
   "property": "C85",
   "status": "proved",
   "theorems": [
    "C85_lists_refuted",
    "C85_linear",
    "C85_accepted"
   ],
   "note": "expectation refuted for every length of list; the linear bounds are the true form; runs that panic have no event list and are not covered"
  },
  {
   "property": "C86",
   "status": "proved",
   "theorems": [
    "C86_local"
   ],
   "note": "levels of indentation leaked by wrapped left-hand sides inside the nodes are included; parts of expressions and lists are left out, see C72 and C53"
  },
  {
   "property": "C87",
   "status": "proved",
   "theorems": [
    "C87_nested",
    "C87_indented"
   ],
   "note": "trailing comments of the file are excluded since they are lost alone but kept in front of `end`; a wrapped left-hand side would indent the end of the package, see C28"
  },
  {
   "property": "C88",
   "status": "proved",
   "theorems": [
    "C88_sources",
    "C88_single",
    "C88_refuted"
   ],
   "note": "C88_sources has both directions for automatic empty lines; the expectation about the source fails for comments of several lines behind code (C88_refuted) and holds without them (C88_single)"
  },
  {
   "property": "C89",
   "status": "proved",
   "theorems": [
    "C89_code",
    "C89_wiped"
   ],
   "note": "C89_code compares any two accepted files with the same kinds of tokens and line breaks at the same places; comments in front of `within` move it to a line of its own (example C89_within)"
  },
  {
   "property": "C90",
   "status": "proved",
   "theorems": [
    "C90_order",
    "C90_check",
    "C90_split"
   ],
   "note": "for worlds without failing system calls; a run that does not end with an exit code (panic, endless recursion) is not compared"
  },
  {
   "property": "C91",
   "status": "proved",
   "theorems": [
    "C91_exactly",
    "C91_needed",
    "C91_check_after_one"
   ],
   "note": "strengthens C83 to an equivalence with a condition on the source alone; C91_needed does without the condition on comments, which is needed for the other direction (C83_comments_needed)"
  },
  {
   "property": "C92",
   "status": "proved",
   "theorems": [
    "C92_behind",
    "C92_own",
    "C92_behind_text",
    "C92_own_text"
   ],
   "note": "C92_behind and C92_own compare the layouts entry by entry and say at which token; the _text theorems give the formatted texts; the extra empty line in front of descriptions and the like is shown by C92_empty_line; comments in front of the first token are excluded (see C75, C89)"
  },
  {
   "property": "C93",
   "status": "proved",
   "theorems": [
    "C93_exactly",
    "C93_text",
    "C93_check_after_one"
   ],
   "note": "C91 without the condition on comments: `hanging` says exactly which comments make the second run add an empty line"
  },
  {
   "property": "C94",
   "status": "proved",
   "theorems": [
    "C94_more",
    "C94_least"
   ],
   "note": "only the kinds of the tokens have to agree, and whether a token spans lines; empty lines and indentation are not compared"
  },
  {
   "property": "C95",
   "status": "proved",
   "theorems": [
    "C95_places",
    "C95_linear"
   ],
   "note": "the guard of 100 lookups counts two lookups for every error that does not consume a token; the factors (51 and 607) are not claimed to be the best"
  },
  {
   "property": "C96",
   "status": "proved",
   "theorems": [
    "C96_levels",
    "C96_size",
    "C96_quadratic",
    "C96_lines",
    "C96_packages",
    "C96_not_linear"
   ],
   "note": "lengths are numbers of characters; the line ending is not empty"
  },
  {
   "property": "C97",
   "status": "proved",
   "theorems": [
    "C97_prefix",
    "C97_tight"
   ],
   "note": "for pairs of texts on which the parser returns; if the guard of C81 stops one of the runs there are no messages to compare"
  },
  {
   "property": "C98",
   "status": "proved",
   "theorems": [
    "C98_parts",
    "C98_order"
   ],
   "note": "the conditions on ends and beginnings are those of C77, which is the step of the induction"
  },
  {
   "property": "C99",
   "status": "proved",
   "theorems": [
    "C99_free"
   ],
   "note": "sufficient condition; C99_matters shows one pair of texts for each of its parts"
  },
  {
   "property": "C100",
   "status": "proved",
   "theorems": [
    "C100_replace",
    "C100_output"
   ],
   "note": "C100_leak and C100_parting show why two of the conditions are needed"
  },
  {
   "property": "C101",
   "status": "proved",
   "theorems": [
    "C101_insert",
    "C101_output",
    "C101_delete"
   ],
   "note": "C101_leak shows why the condition on left-hand sides is needed"
  },
  {
   "property": "C102",
   "status": "proved",
   "theorems": [
    "C102_contents",
    "C102_twice_is_enough",
    "C102_check_passes",
    "C102_check_after_two",
    "C102_succeeds"
   ],
   "note": ""
  },
  {
   "property": "C103",
   "status": "proved",
   "theorems": [
    "C103_replace",
    "C103_output"
   ],
   "note": ""
  },
  {
   "property": "C104",
   "status": "proved",
   "theorems": [
    "C104_copy",
    "C104_text"
   ],
   "note": ""
  },
  {
   "property": "C105",
   "status": "proved",
   "theorems": [
    "C105_exchange",
    "C105_text"
   ],
   "note": ""
  },
  {
   "property": "C106",
   "status": "proved",
   "theorems": [
    "C106_where_it_stops",
    "C106_exactly_when",
    "C106_endless_search"
   ],
   "note": ""
  },
  {
   "property": "C107",
   "status": "proved",
   "theorems": [
    "C107_insert",
    "C107_text",
    "C107_delete"
   ],
   "note": ""
  },
  {
   "property": "C108",
   "status": "proved",
   "theorems": [
    "C108_gap",
    "C108_text",
    "C108_blank"
   ],
   "note": ""
  },
  {
   "property": "C109",
   "status": "proved",
   "theorems": [
    "C109_exactly",
    "C109_code",
    "C109_files",
    "C109_code_refuted"
   ],
   "note": "as stated; C109_code_refuted shows that the condition on carriage returns is needed"
  },
  {
   "property": "C110",
   "status": "proved",
   "theorems": [
    "C110_alone",
    "C110_beside",
    "C110_checks",
    "C110_kept",
    "C110_ends",
    "C110_same_file_refuted",
    "C110_false_alarm_refuted"
   ],
   "note": ""
  },
  {
   "property": "C111",
   "status": "proved",
   "theorems": [
    "C111_contents",
    "C111_settled",
    "C111_order",
    "C111_check"
   ],
   "note": ""
  },
  {
   "property": "C112",
   "status": "proved",
   "theorems": [
    "C112_exactly",
    "C112_first_fault",
    "C112_check"
   ],
   "note": ""
  },
  {
   "property": "C113",
   "status": "proved",
   "theorems": [
    "C113_between",
    "C113_settled"
   ],
   "note": ""
  },
  {
   "property": "C114",
   "status": "proved",
   "theorems": [
    "C114_tree",
    "C114_events"
   ],
   "note": ""
  },
  {
   "property": "C115",
   "status": "proved",
   "theorems": [
    "C115_parts",
    "C115_relex",
    "C115_no_crash_refuted"
   ],
   "note": "that a text read without errors is always formatted is false for other entry rules; C115_no_crash_refuted gives two such texts"
  },
  {
   "property": "C116",
   "status": "proved",
   "theorems": [
    "C116_finds_tree",
    "C116_unambiguous",
    "C116_round_trip",
    "C116_output_list_refuted"
   ],
   "note": "false for the list of outputs, see C116_output_list_refuted"
  },
  {
   "property": "C117",
   "status": "proved",
   "theorems": [
    "C117_reference"
   ],
   "note": ""
  },
  {
   "property": "C118",
   "status": "proved",
   "theorems": [
    "C118_cut"
   ],
   "note": ""
  },
  {
   "property": "C119",
   "status": "proved",
   "theorems": [
    "C119_clean"
   ],
   "note": ""
  },
  {
   "property": "C120",
   "status": "proved",
   "theorems": [
    "C120_twice"
   ],
   "note": ""
  },
  {
   "property": "C121",
   "status": "proved",
   "theorems": [
    "C121_excised"
   ],
   "note": ""
  }
 ]
}