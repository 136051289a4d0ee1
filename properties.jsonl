{"id": "C01", "title": "Tokenizing always finishes", "statement": "`parse` never loops forever in its tokenizing stage: for every source text the tokenizer reaches the end of the text after at most one scanning round per character.", "quantifier": "every source text (any sequence of Unicode characters, any length)", "why_tests_cant": "Non-termination is a property of all inputs; a test only shows that the sampled inputs finish.", "anchors": [{"file": "src/parser/lexing.rs", "symbols": ["Lexer::tokenize", "Lexer::lex_source", "Lexer::lex_space", "Lexer::next"]}]}
{"id": "C02", "title": "Tokenizing is lossless", "statement": "If `parse` reports no lexical error, the source text is exactly the concatenation, in `idx` order, of the texts of all returned tokens and comments, separated only by ASCII whitespace: no code character is dropped, duplicated or moved.", "quantifier": "every source text that lexes without error", "why_tests_cant": "The claim is about every character of every accepted text; tests check a handful of token counts.", "anchors": [{"file": "src/parser/lexing.rs", "symbols": ["lex", "Lexer::generate_token", "Lexer::lex_space"]}, {"file": "src/parser.rs", "symbols": ["parse"]}]}
{"id": "C03", "title": "Token positions tell the truth", "statement": "Every token and comment returned by `parse` carries start and end coordinates that are true of the source: the line is one more than the number of newlines before it, the column is one more than the number of characters since the last newline, and its text is the slice of the source between the two byte offsets.", "quantifier": "every source text, every token and comment, including sources with lexical errors", "why_tests_cant": "Position arithmetic must hold at every offset (multi-byte characters, line ends, after errors).", "anchors": [{"file": "src/parser/lexing.rs", "symbols": ["Lexer::next", "Lexer::jump", "Lexer::generate_token"]}, {"file": "src/parser/tokens.rs", "symbols": ["Position", "Token"]}]}
{"id": "C04", "title": "Token indices enumerate the source", "statement": "The `idx` fields of tokens and comments together are exactly 0,1,...,n-1; within each of the two returned collections they strictly increase. (The formatter relies on them to place comments.)", "quantifier": "every source text", "why_tests_cant": "An ordering invariant over arbitrarily long histories of emitted tokens.", "anchors": [{"file": "src/parser/lexing.rs", "symbols": ["Lexer::generate_token", "Lexer::count"]}]}
{"id": "C05", "title": "Token kinds agree with the lexical grammar", "statement": "Every token and comment of kind K has a text belonging to the lexical class of K (fixed spelling for keywords and operators, identifier syntax, string syntax, comment syntax, numbers) and an IDENTIFIER is never spelled like a keyword; consequently the kind is a function of the text.", "quantifier": "every source text, every returned token", "why_tests_cant": "There are infinitely many identifiers, numbers, strings and comments.", "anchors": [{"file": "src/parser/lexing.rs", "symbols": ["Lexer::lex_source", "Lexer::lex_nondigit", "Lexer::lex_numeral", "Lexer::lex_string", "Lexer::lex_qident", "Lexer::lex_linecomment", "Lexer::lex_blockcomment"]}]}
{"id": "C06", "title": "Tokenizing never crashes on valid UTF-8", "statement": "Expected: `parse` does not panic in its tokenizing stage on any valid UTF-8 source. Refuted: the expectation fails: there are sources on which it panics. Proved instead: for lexically correct sources it panics exactly if some line comment ends in a non-ASCII character.", "quantifier": "every source text", "why_tests_cant": "A crash needs a particular byte alignment; sampling does not cover all of Unicode at all positions.", "anchors": [{"file": "src/parser/lexing.rs", "symbols": ["Lexer::next", "Lexer::generate_token", "Lexer::lex_linecomment"]}]}
{"id": "C07", "title": "Tokenizing never crashes on ASCII", "statement": "`parse` does not panic in its tokenizing stage on any source made of ASCII characters; more generally on any source whose non-ASCII characters never end a line comment and never get rejected as unexpected characters.", "quantifier": "every ASCII source text", "why_tests_cant": "Universally quantified absence of slice-index panics.", "anchors": [{"file": "src/parser/lexing.rs", "symbols": ["Lexer::generate_token", "Lexer::next"]}]}
{"id": "C08", "title": "A block comment ends at the first `*/` after its opening `/*`", "statement": "Expected: Every block comment token has the form `/*` body `*/` (the opening and closing delimiters do not overlap) and the body does not contain `*/`. Refuted: the expectation fails for the spelling `/*/`, which is accepted as a complete comment. Proved instead: apart from that every block comment ends at the first `*/`.", "quantifier": "every source text, every block comment", "why_tests_cant": "Needs all texts between the delimiters.", "anchors": [{"file": "src/parser/lexing.rs", "symbols": ["Lexer::lex_blockcomment", "Lexer::lex_slash"]}]}
{"id": "C09", "title": "Numbers follow the Modelica number syntax", "statement": "Expected: Every UNSIGNED REAL token has digits, an optional fraction and, if there is an exponent marker, at least one exponent digit. Refuted: the expectation fails: `1e` is accepted. Proved instead: the exact syntax of accepted numbers, in which the exponent digits are optional.", "quantifier": "every source text, every number token", "why_tests_cant": "Infinitely many numerals.", "anchors": [{"file": "src/parser/lexing.rs", "symbols": ["Lexer::lex_numeral"]}]}
{"id": "C10", "title": "Lexical errors are reported exactly when the text is not a token sequence", "statement": "`parse` reports no lexical error if and only if the source text can be split into whitespace and valid lexemes by left-to-right scanning; every reported lexical error carries the line and column at which the offending item starts.", "quantifier": "every source text", "why_tests_cant": "The 'if and only if' ranges over all texts.", "anchors": [{"file": "src/parser/lexing.rs", "symbols": ["Lexer::generate_error"]}]}
{"id": "C11", "title": "Parsing always finishes", "statement": "The parser stage of `parse` terminates for every token sequence and every entry rule, including erroneous input: the nesting of rule calls and loop iterations is at most 505(n+1) for n tokens, and a run that returns has activated at most 303(n+1) rules.", "quantifier": "every token sequence, every entry rule", "why_tests_cant": "Termination of a recursive-descent parser with error recovery cannot be tested exhaustively.", "anchors": [{"file": "src/parser/parsing.rs", "symbols": ["Parser::nth", "Parser::advance", "Parser::blowup", "events"]}]}
{"id": "C12", "title": "Syntax errors are reported, not crashed on", "statement": "Expected: For every source, `parse` returns a (possibly non-empty) list of errors; it never panics. Refuted: the expectation fails: there are sources on which it panics. Proved instead: in the parsing stage only two kinds of panic are possible (no progress for a hundred steps; tokens left over at the end).", "quantifier": "every source text", "why_tests_cant": "Crashes on malformed input depend on rare token combinations.", "anchors": [{"file": "src/parser/parsing.rs", "symbols": ["Parser::blowup", "Parser::advance", "Parser::error", "Parser::advance_with_error"]}]}
{"id": "C13", "title": "The 'Parser stuck' guard never rejects a valid file", "statement": "If the parser run without the 100-lookups guard accepts the token sequence without error, the real parser accepts it too, with the same events; the guard can only fire on erroneous input.", "quantifier": "every token sequence accepted without error, every entry rule", "why_tests_cant": "The guard counts lookups between token consumptions; the maximum over all valid programs cannot be sampled.", "anchors": [{"file": "src/parser/parsing.rs", "symbols": ["Parser::nth", "Parser::lifes", "Parser::blowup"]}]}
{"id": "C14", "title": "`parse` output can always be turned into a tree", "statement": "Whenever `parse` with entry StoredDefinition returns (with or without syntax errors), the whole token sequence has been consumed, the events are properly nested, and `build_tree` does not hit any of its assertions or unwraps.", "quantifier": "every source text on which parse returns", "why_tests_cant": "Nesting and completeness must hold for all runs including every error-recovery path.", "anchors": [{"file": "src/parser/parsing.rs", "symbols": ["stored_definition", "Parser::enter", "Parser::exit"]}, {"file": "src/parser/tree.rs", "symbols": ["build_tree"]}]}
{"id": "C15", "title": "The tree contains every token once, in order", "statement": "The leaves of the tree returned by `build_tree`, read left to right, are exactly the tokens returned by `parse`; no interior node is empty (except possibly the root).", "quantifier": "every source text on which parse returns, every entry rule where the tree is built", "why_tests_cant": "Quantifies over all inputs and all tree shapes.", "anchors": [{"file": "src/parser/tree.rs", "symbols": ["build_tree", "Tree::push"]}]}
{"id": "C16", "title": "Accepted files are Modelica", "statement": "If `parse` of a file (entry StoredDefinition) reports no error, the token sequence is derivable from the Modelica concrete-syntax grammar (the tree conforms, node by node, to the EBNF productions, where an equation may also be a bare expression) and the tree has no Error node. For the other entry rules the same holds when the rule stops before the last token.", "quantifier": "every source text accepted without error, every entry rule", "why_tests_cant": "Soundness of a parser ranges over an infinite language.", "anchors": [{"file": "src/parser/parsing.rs", "symbols": ["stored_definition", "composition", "element", "equation", "statement", "expression", "primary"]}, {"file": "src/parser/syntax.rs", "symbols": ["SyntaxKind"]}]}
{"id": "C17", "title": "Layout and comments never influence parsing", "statement": "The parse events and the presence of syntax errors depend only on the sequence of token kinds: two sources with the same token kinds get the same tree shape, whatever their whitespace, comments, identifiers or line structure.", "quantifier": "every pair of sources with equal token-kind sequences", "why_tests_cant": "A relational property over pairs of inputs.", "anchors": [{"file": "src/parser/parsing.rs", "symbols": ["events", "Parser::nth"]}, {"file": "src/parser.rs", "symbols": ["parse"]}]}
{"id": "C18", "title": "Syntax errors point at real source positions", "statement": "Lexical errors come first, in source order; every syntax error message starts with `name:line:col: ` where line and col are the start coordinates of some token of the source, and the syntax errors are in source order.", "quantifier": "every source text", "why_tests_cant": "All error paths of all rules.", "anchors": [{"file": "src/parser/parsing.rs", "symbols": ["Parser::error", "Parser::expect", "Parser::advance_with_error"]}]}
{"id": "C19", "title": "Every file of the grammar is accepted", "statement": "Expected: Every token sequence derivable from the Modelica grammar is parsed without error. Refuted: the expectation fails: `equation initial() = 1;` is derivable and rejected. Proved instead: it holds whenever no equation begins with `end` or, directly in a section, with `initial`; see C60 and C62.", "quantifier": "every derivable token sequence", "why_tests_cant": "Completeness ranges over an infinite language.", "anchors": [{"file": "src/parser/parsing.rs", "symbols": ["SECTION_BREAKERS", "equation_section", "element_list", "class_specifier", "function_arguments"]}]}
{"id": "C20", "title": "Formatting never crashes", "statement": "`pretty_print` does not panic on the result of an error-free `parse` of a file: no unreachable branch, no unwrap of a missing child, no arithmetic underflow (line differences, indentation).", "quantifier": "every source text accepted without error", "why_tests_cant": "Dozens of partial functions over arbitrary trees.", "anchors": [{"file": "src/formatter/formatting.rs", "symbols": ["format", "Formatter::handle_break"]}, {"file": "src/formatter/printing.rs", "symbols": ["Printer::print_marker"]}, {"file": "src/lib.rs", "symbols": ["pretty_print"]}]}
{"id": "C21", "title": "Formatting preserves the code tokens", "statement": "The formatted output contains the text of every code token of the source exactly once and in the original order, interleaved only with whitespace and comments.", "quantifier": "every source text accepted without error", "why_tests_cant": "Must hold for every tree shape.", "anchors": [{"file": "src/formatter/formatting.rs", "symbols": ["Formatter::handle_token", "format"]}, {"file": "src/lib.rs", "symbols": ["pretty_print"]}]}
{"id": "C22", "title": "Formatted output re-tokenizes to the same tokens", "statement": "Expected: Running the tokenizer on the formatted output gives no error and exactly the same sequence of (kind, text) pairs as the source: no two tokens are glued together, split, or swallowed by a comment. Refuted: the expectation fails for a carriage return without line feed behind a line comment. Proved instead: it holds for all sources in which every carriage return is followed by a line feed.", "quantifier": "every source text accepted without error, both platform line endings", "why_tests_cant": "Token gluing depends on every adjacent pair of tokens the grammar allows.", "anchors": [{"file": "src/formatter/formatting.rs", "symbols": ["format"]}, {"file": "src/formatter/printing.rs", "symbols": ["print"]}, {"file": "src/parser/lexing.rs", "symbols": ["lex"]}]}
{"id": "C23", "title": "Formatted output parses to the same syntax tree", "statement": "Expected: Parsing the formatted output gives no error and the same parse events as the source, hence the same tree up to positions: formatting never changes the meaning of a file. Refuted: the expectation fails for a carriage return without line feed behind a line comment, where the output may not even be parsed. Proved instead: it holds for all sources in which every carriage return is followed by a line feed.", "quantifier": "every source text accepted without error", "why_tests_cant": "Semantic preservation over all programs.", "anchors": [{"file": "src/lib.rs", "symbols": ["pretty_print"]}, {"file": "src/parser/parsing.rs", "symbols": ["events"]}]}
{"id": "C24", "title": "Comments are never invented, duplicated or moved across code", "statement": "The sequence of code tokens and comments of the output is a subsequence of that of the source containing all code tokens: a comment in the output stands between the same two code tokens as in the source.", "quantifier": "every source text accepted without error", "why_tests_cant": "Interleavings of comments with all grammar positions.", "anchors": [{"file": "src/formatter/formatting.rs", "symbols": ["Formatter::comments_before", "Formatter::handle_break", "Formatter::handle_token"]}]}
{"id": "C25", "title": "No comment is lost", "statement": "Expected: Every comment of the source appears in the formatted output. Refuted: the expectation fails: comments are lost; C26 says which.", "quantifier": "every source text accepted without error", "why_tests_cant": "Comments can stand between any two tokens.", "anchors": [{"file": "src/formatter/formatting.rs", "symbols": ["Formatter::handle_token", "stored_definition"]}]}
{"id": "C26", "title": "Exactly the comments at line breaks survive", "statement": "A comment is printed if and only if a code token follows it and the formatter breaks the line before that token; comments after the last token are never printed.", "quantifier": "every source text accepted without error, every comment", "why_tests_cant": "Same.", "anchors": [{"file": "src/formatter/formatting.rs", "symbols": ["Formatter::handle_break", "Formatter::handle_token"]}]}
{"id": "C27", "title": "Indentation never goes negative", "statement": "Replaying the markers, the indentation counter never drops below zero (it would panic or wrap).", "quantifier": "every source text accepted without error", "why_tests_cant": "Balance over all tree shapes.", "anchors": [{"file": "src/formatter/printing.rs", "symbols": ["Printer::print_marker"]}, {"file": "src/formatter/formatting.rs", "symbols": ["expression", "primary", "output_expression_list"]}]}
{"id": "C28", "title": "Indentation is balanced", "statement": "Expected: After formatting a file every increase of indentation has been undone; in particular every top-level class starts at column one. Refuted: the expectation fails: an operator moved to a new line on the left-hand side of an equation leaves the rest of the file indented one level deeper. Proved instead: at the end of a file the level of indentation is the number of left-hand sides of equations and assignments that contain such an operator.", "quantifier": "every source text accepted without error", "why_tests_cant": "Same.", "anchors": [{"file": "src/formatter/formatting.rs", "symbols": ["equation", "statement", "simple_expression", "output_expression_list"]}]}
{"id": "C29", "title": "No trailing whitespace", "statement": "No line break produced by the formatter is preceded by a space it produced, and every blank line it produces is empty.", "quantifier": "every source text accepted without error", "why_tests_cant": "Adjacent-marker property over all trees.", "anchors": [{"file": "src/formatter/formatting.rs", "symbols": ["format"]}, {"file": "src/formatter/printing.rs", "symbols": ["print"]}]}
{"id": "C30", "title": "At most one blank line in a row", "statement": "Between two consecutive printed items (tokens or comments) the formatter emits at most one blank line.", "quantifier": "every source text accepted without error", "why_tests_cant": "Same.", "anchors": [{"file": "src/formatter/formatting.rs", "symbols": ["Formatter::handle_break"]}]}
{"id": "C31", "title": "Horizontal whitespace does not matter", "statement": "The formatted output is a function of the token and comment kinds, texts and line numbers: changing columns, indentation or spaces inside a line never changes the result.", "quantifier": "every pair of sources that differ only in horizontal whitespace", "why_tests_cant": "Relational property over pairs of inputs.", "anchors": [{"file": "src/formatter/formatting.rs", "symbols": ["Formatter::handle_break"]}, {"file": "src/parser/tree.rs", "symbols": ["Tree::is_multiline"]}]}
{"id": "C32", "title": "Formatting is idempotent", "statement": "Expected: Formatting already formatted output changes nothing. Refuted: the expectation fails: there are files whose formatted text is formatted differently again. Proved instead: formatting twice reaches a fixed point, see C57.", "quantifier": "every source text accepted without error", "why_tests_cant": "Quantifies over all inputs and two runs.", "anchors": [{"file": "src/lib.rs", "symbols": ["pretty_print"]}, {"file": "src/formatter/formatting.rs", "symbols": ["component_list", "class_or_inheritance_modification", "handle_break"]}]}
{"id": "C33", "title": "Commas and semicolons hug the left and breathe on the right", "statement": "In the output no whitespace precedes a semicolon (except after `within`) or a comma (except in an output list with an omitted item), and every comma and every semicolon inside a matrix is followed by a space or a line break.", "quantifier": "every source text accepted without error, every adjacent token pair", "why_tests_cant": "All adjacent pairs the grammar allows.", "anchors": [{"file": "src/formatter/formatting.rs", "symbols": ["expression_list", "argument_list", "output_expression_list", "primary"]}]}
{"id": "C34", "title": "Binary operators, `=` and `:=` are surrounded by whitespace", "statement": "In the output every `=`, `:=`, relational, multiplicative, power, range and logical operator and every binary `+` and `-` is preceded and followed by a space or a line break; unary signs are not followed by whitespace.", "quantifier": "every source text accepted without error", "why_tests_cant": "Same.", "anchors": [{"file": "src/formatter/formatting.rs", "symbols": ["relation", "term", "factor", "logical_term", "arithmetic_expression", "simple_expression", "modification"]}]}
{"id": "C35", "title": "Section keywords stand between blank lines", "statement": "`public`, `protected`, `equation`, `algorithm` and `external` starting a section are preceded by a blank line in the output, and the class-closing `end` too.", "quantifier": "every source text accepted without error", "why_tests_cant": "Same.", "anchors": [{"file": "src/formatter/formatting.rs", "symbols": ["composition", "equation_section", "algorithm_section", "long_class_specifier"]}]}
{"id": "C36", "title": "Optional blank lines are kept, never invented", "statement": "Between consecutive elements, equations or statements without comments in between, the output has a blank line exactly if the source had at least one, and otherwise a plain line break.", "quantifier": "every source text accepted without error, every pair of consecutive elements/equations/statements", "why_tests_cant": "Depends on all line numbers.", "anchors": [{"file": "src/formatter/formatting.rs", "symbols": ["Formatter::handle_break", "element_list", "equation_section", "algorithm_section"]}]}
{"id": "C37", "title": "Wrapping of an argument list is all-or-nothing", "statement": "Within one function call, array, class modification, enumeration, connect equation or subscript list, either every top-level separator is followed by a line break or none is.", "quantifier": "every source text accepted without error, every list", "why_tests_cant": "All list lengths and nestings.", "anchors": [{"file": "src/formatter/formatting.rs", "symbols": ["function_arguments", "array_arguments", "argument_list", "enum_list", "array_subscripts"]}]}
{"id": "C38", "title": "Check mode never modifies files", "statement": "`mofmt --check PATHS` leaves the contents of every file unchanged, whatever happens (errors, crashes half-way).", "quantifier": "every file system, every argument list, every crash point", "why_tests_cant": "All file-system states and interruption points.", "anchors": [{"file": "src/main.rs", "symbols": ["main", "format_files"]}]}
{"id": "C39", "title": "Files with syntax errors are left alone", "statement": "In formatting mode a file is written only if it has the `.mo` extension, was readable as UTF-8 and parsed without error; the written content is the pretty-printed text followed by the line ending. All other files keep their contents.", "quantifier": "every file system, every argument list", "why_tests_cant": "All file-system states and argument lists.", "anchors": [{"file": "src/main.rs", "symbols": ["format_files", "read_file", "write_file", "is_modelica"]}]}
{"id": "C40", "title": "Exit code tells the truth", "statement": "The exit code is 0 if and only if every processed file was readable, error-free and (in check mode) already formatted; otherwise it is 1 (or the process panics).", "quantifier": "every file system, every argument list", "why_tests_cant": "Same.", "anchors": [{"file": "src/main.rs", "symbols": ["format_files", "main"]}]}
{"id": "C41", "title": "Directories are searched completely", "statement": "For a directory argument exactly the regular files with extension `mo` at any depth are processed, each once; explicitly named files are taken as they are.", "quantifier": "every directory tree", "why_tests_cant": "All directory shapes and names.", "anchors": [{"file": "src/main.rs", "symbols": ["get_files_from_dir", "is_modelica"]}]}
{"id": "C42", "title": "An interrupted write never destroys a file", "statement": "Expected: If the process is killed at any moment, each file holds either its old or its new complete contents. Refuted: the expectation fails: files are truncated before they are written. Proved instead: at any moment a file holds its old contents or an initial part of its new contents, and its complete old or new contents if the run has ended with an exit code (see C39).", "quantifier": "every crash point of every run", "why_tests_cant": "Crash points cannot be enumerated by tests.", "anchors": [{"file": "src/main.rs", "symbols": ["write_file"]}]}
{"id": "C43", "title": "One bad file does not prevent formatting of the others", "statement": "Expected: Every error-free file among the arguments gets formatted no matter what the other files contain. Refuted: the expectation fails: a file that crashes the parser stops the run. Proved instead: if the run ends with an exit code, every error-free selected file has been formatted, whatever errors the others have.", "quantifier": "every argument list", "why_tests_cant": "Combinations of files.", "anchors": [{"file": "src/main.rs", "symbols": ["format_files"]}]}
{"id": "C44", "title": "A freshly formatted file passes the check", "statement": "Expected: After `mofmt f.mo` succeeds, `mofmt --check f.mo` exits with 0. Refuted: the expectation fails: formatting is not idempotent, see C32. Proved instead: the check passes exactly if formatting the new contents again changes nothing; after formatting twice it passes, see C58.", "quantifier": "every file", "why_tests_cant": "Relates two runs on all contents.", "anchors": [{"file": "src/main.rs", "symbols": ["format_files"]}, {"file": "src/lib.rs", "symbols": ["pretty_print"]}]}
{"id": "C45", "title": "Only the first argument is an option", "statement": "Help/version/check are recognised only as the first argument; help and version never touch files; any other first argument starting with `-` is rejected with exit code 1 without touching files. If an argument is not UTF-8 the tool panics before it does anything.", "quantifier": "every argument vector", "why_tests_cant": "All argument vectors.", "anchors": [{"file": "src/main.rs", "symbols": ["main"]}]}
{"id": "C46", "title": "Every entry rule accepts only its own language", "statement": "Expected: For every entry rule, a token sequence parsed without error and completely consumed is derivable from that rule. Refuted: the expectation fails: the entry rule for import lists accepts `a,`.", "quantifier": "every entry rule, every token sequence", "why_tests_cant": "Ranges over all rules and all token sequences.", "anchors": [{"file": "src/parser/parsing.rs", "symbols": ["import_list", "expression_list", "Parser::eof"]}]}
{"id": "C47", "title": "The published equation syntax is enforced", "statement": "Expected: A file parsed without error is derivable from the grammar exactly as published, in particular an equation that is neither a control structure nor a call contains `=`. Refuted: the expectation fails: `equation 1;` is accepted.", "quantifier": "every source text accepted without error", "why_tests_cant": "Same.", "anchors": [{"file": "src/parser/parsing.rs", "symbols": ["equation"]}]}
{"id": "C48", "title": "Brackets and dots hug what they belong to", "statement": "In the output no whitespace stands before a closing bracket (except after an omitted item of an output list), no space stands after an opening bracket (a line break may), no whitespace stands around the dots of names, and none between a callee, modified element or subscripted name and its opening parenthesis (except after `annotation`).", "quantifier": "every source text accepted without error, every pair of neighbouring code tokens", "why_tests_cant": "All pairs of tokens the grammar allows, in all contexts.", "anchors": [{"file": "src/formatter/formatting.rs", "symbols": ["function_call_args", "class_modification", "array_subscripts", "primary", "name", "component_reference"]}]}
{"id": "C49", "title": "Every element, equation, statement, block and description starts a line", "statement": "In the output the code token after a semicolon that ends an element, equation or statement, and after `then`, `else` and `loop` of a control structure, stands on a new line; so do `else`, `elseif`, `elsewhen` and `end` of control structures, descriptions, annotations and `constrainedby`. This holds with any comments in between.", "quantifier": "every source text accepted without error", "why_tests_cant": "All nestings of control structures, all comment placements.", "anchors": [{"file": "src/formatter/formatting.rs", "symbols": ["if_equation", "if_statement", "for_equation", "when_equation", "while_statement", "description_string", "annotation_clause", "constraining_clause", "Formatter::handle_break"]}]}
{"id": "C50", "title": "Check mode reports on every file", "statement": "A check that ends with an exit code has printed exactly one report per selected file, in the order of the search: unreadable, syntax errors, check failed or check passed, whichever is true of the file; the exit code is 0 exactly if all of them passed.", "quantifier": "every file system, every argument list", "why_tests_cant": "All file systems and all combinations of good and bad files.", "anchors": [{"file": "src/main.rs", "symbols": ["format_files"]}]}
{"id": "C51", "title": "Formatting leaves files that pass the check as they are", "statement": "If every selected file passes the check, formatting them changes no file.", "quantifier": "every file system, every argument list", "why_tests_cant": "Relates two modes on all contents.", "anchors": [{"file": "src/main.rs", "symbols": ["format_files"]}]}
{"id": "C52", "title": "Line breaks before operators follow the source", "statement": "A binary operator (`or`, `and`, relational, additive, multiplicative, power) starts a new line of the output exactly if the operand after it starts on a later line of the source than the operand before it ends; otherwise it is preceded by a single space. It is always followed by a single space.", "quantifier": "every source text accepted without error, every operation in its syntax tree", "why_tests_cant": "All nestings of expressions and all placements of line breaks.", "anchors": [{"file": "src/formatter/formatting.rs", "symbols": ["logical_expression", "logical_term", "relation", "arithmetic_expression", "term", "factor"]}]}
{"id": "C53", "title": "Which lists are wrapped", "statement": "The list in a pair of brackets (arguments of functions and arrays, rows of matrices, modifications, enumerations, subscripts) is wrapped, after the opening bracket and after each separator, exactly if the brackets stand on different lines of the source or, for modifications and enumerations, if there is a description inside; a connect equation exactly if it spans lines. A row of a matrix is wrapped if it spans lines, a single row also together with its brackets. The components of one declaration are wrapped exactly if they span lines. Loop indices never are.", "quantifier": "every source text accepted without error, every list in its syntax tree", "why_tests_cant": "All lists, nestings and placements of line breaks.", "anchors": [{"file": "src/formatter/formatting.rs", "symbols": ["function_call_args", "function_arguments", "array_arguments", "primary", "expression_list", "class_modification", "argument_list", "short_class_specifier", "enum_list", "array_subscripts", "connect_equation", "component_list", "for_indices"]}]}
{"id": "C54", "title": "A wrapped list wraps the lists around it", "statement": "Expected: If the brackets of a list stand on different lines, every list around it is wrapped as well (code-style.md). Refuted: the expectation fails for the list of results on the left-hand side of a call, which is never wrapped. Proved instead: it holds for all lists in brackets of C53, for rows of matrices and for lists of components.", "quantifier": "every source text accepted without error, every pair of nested lists", "why_tests_cant": "All nestings.", "anchors": [{"file": "src/formatter/formatting.rs", "symbols": ["function_call_args", "class_modification", "primary", "output_expression_list"]}]}
{"id": "C55", "title": "A single space between tokens on a line, except where listed", "statement": "Two consecutive tokens on one line are separated by exactly one space, except that they touch: before closing brackets, commas and semicolons (but not after an omitted result, nor in `within ;`); after opening brackets and dots; before dots inside names and `.*` of imports; before opening brackets that do not start an expression, a list of results or an annotation. Comments on the line of a token are preceded by one space, and nothing but another comment follows a comment on its line. (Signs: C34, C52.)", "quantifier": "every source text accepted without error, every pair of neighbouring tokens of its formatted text", "why_tests_cant": "All pairs of tokens in all contexts.", "anchors": [{"file": "src/formatter/formatting.rs", "symbols": ["format"]}, {"file": "src/formatter/printing.rs", "symbols": ["Printer::print_marker"]}]}
{"id": "C56", "title": "The layout follows simple rules about the syntax tree", "statement": "The formatted text is exactly the one laid out by a reference formatter: rules that say, for every token of the syntax tree, whether it starts a line, with or without a blank line above it, at which level of indentation, and where the comments around it go. The rules depend on the kinds of the node, of its child and of the child before it, and on which parts of the source span lines; they use no markers, no state and no order of execution.", "quantifier": "every source text accepted without error, both line endings", "why_tests_cant": "Complete functional specification of the output for all syntax trees and comment placements.", "anchors": [{"file": "src/formatter/formatting.rs", "symbols": ["format"]}, {"file": "src/formatter/printing.rs", "symbols": ["print"]}, {"file": "src/lib.rs", "symbols": ["pretty_print"]}]}
{"id": "C57", "title": "Formatting twice reaches a fixed point", "statement": "For a source without errors in which every carriage return is followed by a line feed, formatting, formatting the result, and formatting that again never fails, and the third result is equal to the second.", "quantifier": "every source text accepted without error, both line endings", "why_tests_cant": "Quantifies over all inputs and three runs; depends on how line breaks created by one run change the decisions of the next, at every depth of the syntax tree.", "anchors": [{"file": "src/lib.rs", "symbols": ["pretty_print"]}, {"file": "src/formatter/formatting.rs", "symbols": ["format"]}]}
{"id": "C58", "title": "After formatting twice the check passes", "statement": "If a formatting run over some files exits with 0, a second one does as well, and then `--check` on the same paths exits with 0 (no faults, no file reached by two paths, every carriage return followed by a line feed).", "quantifier": "every file system, every argument list, every contents", "why_tests_cant": "Relates three runs on all contents of all files.", "anchors": [{"file": "src/main.rs", "symbols": ["format_files"]}, {"file": "src/lib.rs", "symbols": ["pretty_print"]}]}
{"id": "C59", "title": "Formatting a formatted text joins no lines", "statement": "Two neighbouring tokens that stand on different lines of a formatted text still do when that text is formatted again.", "quantifier": "every source text accepted without error (carriage returns as in C57), every pair of neighbouring tokens", "why_tests_cant": "All syntax trees; relates two runs.", "anchors": [{"file": "src/lib.rs", "symbols": ["pretty_print"]}, {"file": "src/formatter/formatting.rs", "symbols": ["format"]}]}
{"id": "C60", "title": "The parser accepts exactly its language", "statement": "A source is accepted without error exactly if it has no lexical error and its tokens are the leaves of a syntax tree that follows the grammar and in which no equation begins with a token that ends the list of equations it stands in (`end`; directly in a section also `initial`). The parser then produces exactly that tree.", "quantifier": "every source text; every syntax tree", "why_tests_cant": "Both directions range over an infinite language; tests sample single files.", "anchors": [{"file": "src/parser/parsing.rs", "symbols": ["events", "SECTION_BREAKERS", "equation_section", "if_equation", "class_specifier", "import_clause", "name", "function_arguments"]}, {"file": "src/parser.rs", "symbols": ["parse"]}]}
{"id": "C61", "title": "No file has two syntax trees", "statement": "Two such syntax trees with the same tokens are equal; if only the token kinds agree they have the same shape. The grammar is unambiguous, so the tree the tool works on is the only possible reading of the file.", "quantifier": "every pair of syntax trees", "why_tests_cant": "Ambiguity is a property of all derivations of all words.", "anchors": [{"file": "src/parser/parsing.rs", "symbols": ["events", "stored_definition"]}]}
{"id": "C62", "title": "Files of the published grammar are accepted", "statement": "Every token sequence derived from the published Modelica grammar by a tree in which no equation begins with `end` or, directly in a section, with `initial`, is parsed without error.", "quantifier": "every syntax tree of the published grammar with that condition", "why_tests_cant": "Completeness ranges over an infinite language.", "anchors": [{"file": "src/parser/parsing.rs", "symbols": ["events", "equation", "equation_section", "primary"]}]}
{"id": "C63", "title": "Texts and bytes correspond one to one", "statement": "Exactly the well-formed UTF-8 files are read, as the text they stand for; every text that is written is well-formed UTF-8 and stands for exactly that text. Names of files that are not UTF-8 are shown with U+FFFD for every ill-formed part, as the Unicode standard recommends.", "quantifier": "every byte sequence, every text", "why_tests_cant": "All byte sequences.", "anchors": [{"file": "src/main.rs", "symbols": ["read_file", "write_file", "main"]}]}
{"id": "C64", "title": "Formatting invents no characters", "statement": "Every character of the formatted text occurs in the source, or in the line ending, or is a space.", "quantifier": "every source text accepted without error", "why_tests_cant": "All source texts and all characters.", "anchors": [{"file": "src/lib.rs", "symbols": ["pretty_print"]}, {"file": "src/formatter/printing.rs", "symbols": ["print"]}]}
{"id": "C65", "title": "Files in another encoding are reported and kept", "statement": "A selected file that is not UTF-8 keeps its bytes at every moment of any run. A run that ends with an exit code has printed an error line with the name of that file, and the code is 1. Without faults such a file never makes the tool crash (README.md says that it panics).", "quantifier": "every file system, every argument list, every interruption", "why_tests_cant": "All byte sequences, combinations of files and crash points.", "anchors": [{"file": "src/main.rs", "symbols": ["read_file", "format_files"]}]}
{"id": "C66", "title": "Where characters outside ASCII may stand", "statement": "In an accepted source every character outside ASCII lies inside a string, a comment or a quoted identifier. In particular a source that begins with a byte order mark is never accepted, and a file that begins with one is never modified.", "quantifier": "every source text, every file system", "why_tests_cant": "All characters at all places.", "anchors": [{"file": "src/parser/lexing.rs", "symbols": ["Lexer::lex_source"]}, {"file": "src/main.rs", "symbols": ["format_files"]}]}
{"id": "C67", "title": "The first syntax error is reported where it is", "statement": "If a lexically correct source is rejected, its first error is reported at a token (or at the end, at the last token) such that everything before that place can be continued to a correct file, while no correct file has the same token kinds up to and including the token after the reported one.", "quantifier": "every lexically correct source that is rejected, every correct source", "why_tests_cant": "Quantifies over all continuations and over all correct files.", "anchors": [{"file": "src/parser/parsing.rs", "symbols": ["Parser::expect", "Parser::error", "Parser::advance_with_error", "stored_definition"]}]}
{"id": "C68", "title": "The expected token of the first error would be right", "statement": "The first error, unless it is at the end of the file, is either of the form 'expected T, found K', where K is the kind of the token at the reported place, T differs from K and the text before that place can be continued to a correct file that goes on with a T; or it names, as unexpected, a token that stands at the reported place or later.", "quantifier": "every lexically correct source that is rejected", "why_tests_cant": "Quantifies over all wrong files and over all continuations.", "anchors": [{"file": "src/parser/parsing.rs", "symbols": ["Parser::expect", "Parser::error"]}]}
{"id": "C69", "title": "Indentation of nested statements", "statement": "In every if-, for-, when- and while-equation or -statement the first word, `else`, `elseif`, `elsewhen` and `end` start lines at one level of indentation, and every equation or statement inside starts a line exactly one level deeper (in nodes without a wrapped left-hand side, see C28).", "quantifier": "every source text accepted without error, every such node at any depth", "why_tests_cant": "All nestings of blocks.", "anchors": [{"file": "src/formatter/formatting.rs", "symbols": ["if_equation", "for_equation", "when_equation", "while_statement", "if_statement"]}]}
{"id": "C70", "title": "Indentation of classes", "statement": "In every class defined with `end`, the sections, `public`, `protected`, `external` and `end` start lines at the level of the line on which the class starts (the left margin for classes that are not inside others); elements, equations and statements of sections, the description and annotations start lines one level deeper; an annotation of `external` two levels deeper (same exception as C69).", "quantifier": "every source text accepted without error, every class at any depth of nesting", "why_tests_cant": "All nestings of classes, all orders of sections.", "anchors": [{"file": "src/formatter/formatting.rs", "symbols": ["composition", "long_class_specifier", "element_list", "equation_section", "algorithm_section"]}]}
{"id": "C71", "title": "Indentation of descriptions and annotations", "statement": "Descriptions, annotations and constraining clauses behind elements, arguments, equations and statements start a line one level deeper than the line on which what they belong to starts (same exception as C69).", "quantifier": "every source text accepted without error, every such node", "why_tests_cant": "All nestings of declarations and modifications.", "anchors": [{"file": "src/formatter/formatting.rs", "symbols": ["description", "element", "equation", "statement", "component_declaration", "annotation_clause"]}]}
{"id": "C72", "title": "Indentation of wrapped operators", "statement": "An operator that starts a line is indented by exactly one level more than the line on which its element, equation, statement or argument starts, no matter how many operators and parentheses of the same expression are around it (same exception as C69).", "quantifier": "every source text accepted without error, every wrapped operator", "why_tests_cant": "All nestings of operators and parentheses, all placements of line breaks.", "anchors": [{"file": "src/formatter/formatting.rs", "symbols": ["expression", "simple_expression", "logical_expression", "arithmetic_expression", "primary", "output_expression_list"]}]}
{"id": "C73", "title": "Indentation of lists", "statement": "Elements of one list in brackets that start lines have the same level; those of a list inside an element of another list have a higher level, except for the arguments of `function f(...)`; the level is one more than that of the line on which the surrounding element, equation, statement or argument starts, unless an operator of the expression around the list was wrapped. Components of one declaration on several lines are one level deeper than the declaration.", "quantifier": "every source text accepted without error, every list, every pair of nested lists", "why_tests_cant": "All nestings of lists.", "anchors": [{"file": "src/formatter/formatting.rs", "symbols": ["function_call_args", "class_modification", "primary", "array_subscripts", "short_class_specifier", "component_list", "function_partial_application"]}]}
{"id": "C74", "title": "Comments keep their company", "statement": "Every comment of the formatted text stands alone on a line exactly if in the source it does not start on the line on which the code before it ends. A comment on a line of its own has the indentation of what follows it, and a line follows it; a comment behind code is separated from it by one space, and only further such comments follow it on its line.", "quantifier": "every source text accepted without error, every comment of the output", "why_tests_cant": "Comments can be placed between any two tokens, in any number and on any lines.", "anchors": [{"file": "src/formatter/formatting.rs", "symbols": ["handle_token", "handle_break", "comments_before"]}]}
{"id": "C75", "title": "Beginning and end of the output", "statement": "The formatted text ends in the semicolon that ends the last class (so the file written by the program ends in exactly one line ending), or is empty if the source has no tokens. It starts with the first token of the source, unless that is `final`, or `within` with comments before it; then it starts with the first comment on the first line of the source before that token, or, if there is none, with a line ending.", "quantifier": "every source text accepted without error, both line endings", "why_tests_cant": "All files; the beginning is a special case in the formatter that depends on comments and on the first keyword.", "anchors": [{"file": "src/formatter/formatting.rs", "symbols": ["stored_definition", "handle_break"]}, {"file": "src/formatter/printing.rs", "symbols": ["print"]}, {"file": "src/main.rs", "symbols": ["main"]}]}
{"id": "C76", "title": "The layout does not depend on names", "statement": "If the names, numbers, strings and comments of a source are replaced by others of the same kind that extend over as many lines, and the spaces within its lines are changed, it is still accepted, and the output has the same line breaks, empty lines, indentation and spaces between the same items. (Two texts are related in this way exactly if the lexer finds items of the same kinds on the same lines in them.)", "quantifier": "every accepted source text, every text related to it on which the parser does not panic", "why_tests_cant": "All pairs of related texts.", "anchors": [{"file": "src/formatter/formatting.rs", "symbols": ["handle_token", "handle_break", "break_or_space"]}, {"file": "src/parser/tree.rs", "symbols": ["build_tree", "is_multiline"]}]}
{"id": "C77", "title": "Files one behind the other", "statement": "If a source ends in a token and a line feed, and another one starts with a token other than `within` and `final`, the two written one behind the other are accepted, and the output is the output of the first, a line ending, and the output of the second; an empty line stands between them if the token that starts the second file is more than one line below the token that ends the first. Exception: if a left-hand side was wrapped in the first file (C28).", "quantifier": "every pair of source texts accepted without error", "why_tests_cant": "All pairs of files.", "anchors": [{"file": "src/formatter/formatting.rs", "symbols": ["stored_definition", "class_definition"]}, {"file": "src/parser/parsing.rs", "symbols": ["stored_definition"]}]}
{"id": "C78", "title": "Every text, correct or not", "statement": "Lexing any text: it falls into white space, tokens and comments, and rejected pieces in exactly one way. A rejected piece is a character that starts no token or comment; a string or quoted identifier or block comment that is never closed, up to the end of the text; or a quoted identifier up to the first character not allowed in it. All tokens and comments are reported with their texts, kinds, numbers and places, and for each rejected piece one error with the line and column where it starts and the message for its kind; lexing goes on directly behind it. The tool crashes instead exactly if a line comment ends with a character of several bytes, or a rejected piece ending with such a character stands directly before a token or comment.", "quantifier": "every source text", "why_tests_cant": "All texts, including those with any number of errors of any kind.", "anchors": [{"file": "src/parser/lexing.rs", "symbols": ["lex", "tokenize", "generate_error", "generate_token"]}, {"file": "src/parser/lexing.rs", "symbols": ["lex_source", "lex_string", "lex_qident", "lex_blockcomment"]}]}
{"id": "C79", "title": "Formatting mode reports on every file", "statement": "A formatting run that ends with an exit code has handled the selected files one by one in their order. About each file either exactly one message is printed and the file is left alone, or its formatted text is written into it and nothing is printed. The message is, on standard error, the name and `error: ... is not a Modelica file` for a file with another extension, or the name and the message of the operating system if it cannot be read; on standard output it is `Syntax errors detected:` and the list of all its errors. The exit code is 1 if there was a message, otherwise 0. Nothing else is printed or written.", "quantifier": "every set of files, list of arguments and history of system calls", "why_tests_cant": "All worlds and runs.", "anchors": [{"file": "src/main.rs", "symbols": ["format_files", "read_file", "write_file"]}]}
{"id": "C80", "title": "Every syntax error says something true, and what is skipped is kept", "statement": "When parsing any text ends, the errors are the lexical ones followed by the syntactic ones, and each syntactic error is of one of two kinds. Either it says `expected T, found K`, where K is the kind of the token at the place of the error (EOF behind the last token, reported at the last token), and K is not T; such an error skips nothing. Or it says `unexpected token 'K' ...` with one of five endings, where K is the kind of the token at the place of the error or of the one behind it, as the ending demands; then exactly that token at the place of the error is skipped. Every Error node of the tree holds exactly one token, and these are the skipped tokens in the order of the errors: one node for each error of the second kind, none for the others.", "quantifier": "every source text, every entry rule", "why_tests_cant": "All texts, with any number of errors of either kind.", "anchors": [{"file": "src/parser/parsing.rs", "symbols": ["expect", "error", "advance_with_error"]}]}
{"id": "C81", "title": "The 'Parser stuck' guard stops only endless runs", "statement": "Expected: If the guard makes the parser panic on a file, the parser without the guard would not come to an end; and where the guard does not fire, it changes nothing. Refuted: the expectation fails: on `x = (((((((((1;` the guard fires while the parser returns from the nine open parentheses, although it would report nine errors and go on. Proved instead: a run that comes to an end does so with every higher limit, with the same events and errors.", "quantifier": "every token sequence, every entry rule, every limit of the guard", "why_tests_cant": "All token sequences, with any number of errors.", "anchors": [{"file": "src/parser/parsing.rs", "symbols": ["nth", "blowup", "advance"]}]}
{"id": "C82", "title": "Line breaks of Windows", "statement": "Converting the line breaks of a file and formatting it commute: formatting the file with a carriage return before every line feed, on a system whose line breaks are CR LF, gives the formatted text of the original file (on a system whose line breaks are LF) with a carriage return before every line feed, including those inside strings and comments; and it fails, or reports errors, exactly if the original does. Required is only that no quoted identifier spans lines, where the conversion makes an error. If no string, quoted identifier or comment spans lines, the conversion of the source makes no difference to the formatted text at all.", "quantifier": "every lexically correct source, every syntax", "why_tests_cant": "All texts.", "anchors": [{"file": "src/parser/lexing.rs", "symbols": ["lex_source", "lex_string", "lex_blockcomment"]}, {"file": "src/formatter/printing.rs", "symbols": ["print", "print_marker"]}]}
{"id": "C83", "title": "A run that moves no line break is the last one", "statement": "If formatting a source puts neighbouring tokens on different lines exactly where the source does, and in the source nothing begins on the line on which a comment of several lines ends, then formatting the result changes nothing any more. (In general one run is not enough, and without the condition on comments neither.)", "quantifier": "every source text accepted without error (carriage returns as in C57), both line endings", "why_tests_cant": "All syntax trees and comment placements; relates two runs.", "anchors": [{"file": "src/lib.rs", "symbols": ["pretty_print"]}, {"file": "src/formatter/formatting.rs", "symbols": ["format"]}, {"file": "src/formatter/printing.rs", "symbols": ["print"]}]}
{"id": "C84", "title": "Empty lines count once", "statement": "If two sources consist of tokens and comments of the same kinds in the same order, and between neighbours, and inside each token or comment, the number of line breaks is 0 in both, 1 in both or at least 2 in both, then both have the same layout: each item gets the same white space in front of it. If moreover all spellings are the same, the formatted texts are equal, and one source has errors if and only if the other one has.", "quantifier": "all pairs of such source texts", "why_tests_cant": "Relates runs on all pairs of texts with different line numbers; every decision of the formatter that looks at lines is involved.", "anchors": [{"file": "src/lib.rs", "symbols": ["pretty_print"]}, {"file": "src/formatter/formatting.rs", "symbols": ["format"]}, {"file": "src/formatter/printing.rs", "symbols": ["print"]}]}
{"id": "C85", "title": "The recursion is only as deep as the source is nested", "statement": "Expected: How many grammar rules are open at the same time while parsing, and how deep the syntax tree is over which the formatter recurses, depends on the nesting of brackets, classes and blocks, but not on the length of lists. Refuted: the expectation fails: for every n there is an accepted file with brackets nested once and 2n+12 tokens, a list of numbers in braces, for which more than n rules are open at the same time and the tree is deeper than n; long lists can exhaust the stack. Proved instead: the depth is linear in the number of tokens, at most 13 per token (plus 1) for accepted files and at most 505 per token for all runs that end.", "quantifier": "every source text", "why_tests_cant": "Depends on all derivations of the grammar; the number of stack frames cannot be observed from outside until the stack overflows.", "anchors": [{"file": "src/parser/parsing.rs", "symbols": ["array_arguments_non_first", "function_arguments_non_first"]}, {"file": "src/formatter/formatting.rs", "symbols": ["format"]}, {"file": "src/parser/tree.rs", "symbols": ["build_tree"]}]}
{"id": "C86", "title": "Parts of files are laid out in the same way wherever they stand", "statement": "Take two nodes of the same kind in two accepted files, or in the same file, for example a class, an element, an equation or a statement. If their tokens are of the same kinds and stand, with the comments between them, on the same lines relative to the first token, the layouts have the same white space and line breaks from the first to the last token of the nodes. Only the level of indentation differs, by one number for the whole node. The claim leaves out parts of expressions and of lists, which depend on the expression or list around them.", "quantifier": "every pair of accepted source texts and every pair of nodes", "why_tests_cant": "The formatter keeps flags, a level and counters in one state for the whole file; that they make no difference concerns all files around the nodes.", "anchors": [{"file": "src/formatter/formatting.rs", "symbols": ["format"]}, {"file": "src/formatter/printing.rs", "symbols": ["print"]}, {"file": "src/lib.rs", "symbols": ["pretty_print"]}]}
{"id": "C87", "title": "Classes inside a package are formatted as they are alone", "statement": "Take an accepted file of classes, without `within` and without `final` in front of a class, that starts and ends with a token and a line feed, and in which no left-hand side of an equation or assignment is wrapped. Put a line `package name` above it and `end name;` below it. The new file is accepted. Its formatted text consists of the line `package name`, an empty line, the layout of the old file with every line indented by one more level, an empty line and `end name;`. If no token and no comment spans lines, the middle is the formatted text of the old file with two spaces in front of every line that is not empty.", "quantifier": "every accepted source text that meets the conditions, every package name, every line ending", "why_tests_cant": "Blank lines, indentation and comments are governed by one state for the whole file; that a class does not notice the package around it concerns all classes.", "anchors": [{"file": "src/formatter/formatting.rs", "symbols": ["format"]}, {"file": "src/formatter/printing.rs", "symbols": ["print"]}, {"file": "src/lib.rs", "symbols": ["pretty_print"]}, {"file": "src/parser/parsing.rs", "symbols": ["stored_definition", "element_list"]}]}
{"id": "C88", "title": "Empty lines are automatic or stand for empty lines of the source", "statement": "Expected: In the output for an accepted file there is an empty line in front of the following tokens, behind the comments on the line of the token before: the first tokens of the parts of a class body (element lists, section words, sections, `external`, the external call, the annotation of the class, but not the annotation of the external function), of the first equation or statement of a section, and `end` of a class. Any other empty line stands in front of a token or comment that is separated by at least one whole line of the source from the token or comment before it. Refuted: the expectation fails: a comment of three lines behind code puts an empty line in front of the code on the next line. Proved instead: it holds if no comment spans lines, and in any case if distances are measured from the last token or comment that starts a line, ignoring comments behind it.", "quantifier": "every accepted source text, every line ending, every empty line of the output", "why_tests_cant": "Blank lines come from marks of a hundred rules and from line numbers of tokens and comments that are compared one by one; that no other source exists is a claim about every file.", "anchors": [{"file": "src/formatter/formatting.rs", "symbols": ["format"]}, {"file": "src/formatter/printing.rs", "symbols": ["print"]}, {"file": "src/lib.rs", "symbols": ["pretty_print"]}]}
{"id": "C89", "title": "Comments leave the layout of the code alone", "statement": "Write spaces over the comments of an accepted file, keeping line feeds, where no comment stands in front of `within`. The new file is accepted and has no comments. Its tokens and those of the old file are laid out in the same way: token by token there is the same line break with the same indentation, or the same space or none; only empty lines may differ. In general the layout of the code, up to empty lines, is a function of the kinds of the tokens and of the places of line breaks between and inside tokens.", "quantifier": "every accepted source text, every line ending, every token", "why_tests_cant": "Comments share the printing code and the marks for line breaks with tokens; that they never change where code goes concerns any number of comments at any place.", "anchors": [{"file": "src/formatter/formatting.rs", "symbols": ["format"]}, {"file": "src/formatter/printing.rs", "symbols": ["print"]}, {"file": "src/lib.rs", "symbols": ["pretty_print"]}]}
{"id": "C90", "title": "The order of files does not matter", "statement": "In a world where no system call fails, let the paths on the command line be given in another order and the entries of directories be listed in another order. If the first run ends with an exit code, so does the second, with the same code. Formatting leaves the same contents in all files, even if several paths name the same file. Checking makes the same reports in another order. A run on several paths does exactly what a run on the first ones followed by a run on the others does, and its exit code is the larger of the two.", "quantifier": "every file system without failing calls, every store, every permutation of paths and of directory entries, every way to split the paths", "why_tests_cant": "File systems list directories in any order, so tests see one of the orders; that the result does not depend on it concerns all permutations and aliased files.", "anchors": [{"file": "src/main.rs", "symbols": ["main", "format_files", "get_files_from_dir", "is_modelica", "read_file", "write_file"]}]}
{"id": "C91", "title": "Exactly when one run is enough", "statement": "For an accepted file (carriage returns as in C57, and nothing begins on the line on which a comment of several lines ends), formatting the output changes nothing if and only if the source has no unsettled list. A list is unsettled if it stands on one line of the source although a description, an annotation or a constraining clause inside it has to start a line, and it is a declaration of several components, a modification with no description of its own arguments, or a modification of an inherited class. Hence after one successful run on files that are not aliased, `--check` passes if and only if no file had an unsettled list.", "quantifier": "every accepted source text that meets the conditions, both line endings; every world without failing calls", "why_tests_cant": "Relates two runs over all syntax trees; an equivalence needs both that nothing else makes the second run differ and that each such list does.", "anchors": [{"file": "src/lib.rs", "symbols": ["pretty_print"]}, {"file": "src/formatter/formatting.rs", "symbols": ["format"]}, {"file": "src/formatter/printing.rs", "symbols": ["print"]}, {"file": "src/main.rs", "symbols": ["main", "format_files"]}]}
{"id": "C92", "title": "One more comment adds that comment or nothing", "statement": "Add a comment without line breaks to an accepted file. Behind a token: the new file is accepted, and its formatted text is that of the old file with a space and the comment behind this token if the next token starts a line of the output, and the same text otherwise. On a line of its own above the line of a token or comment, with code somewhere above: the formatted text is that of the old file with one more line, which holds the comment with the indentation of the line below it, if the next token starts a line of the output, and the same text otherwise. The new line has an empty line above it if the line below had one; if not, it can get one only if it does not come right below the line of the token or comment before it.", "quantifier": "every accepted source text, every place behind a token and in front of a line, every one-line comment, every line ending", "why_tests_cant": "Comments share the printing code, marks and line counting with tokens; the claim relates the outputs for all pairs of such texts.", "anchors": [{"file": "src/formatter/formatting.rs", "symbols": ["format"]}, {"file": "src/formatter/printing.rs", "symbols": ["print"]}, {"file": "src/lib.rs", "symbols": ["pretty_print"]}]}
{"id": "C93", "title": "Exactly when one run is enough, whatever the comments", "statement": "For every accepted file (carriage returns as in C57), formatting the output once more changes nothing if and only if the file is settled in the sense of C91 and no comment hangs: a comment hangs if it has two lines, is printed behind code, and the next token or comment starts in the source on the line on which it ends and on a new line without an empty line in the output, at a place where empty lines can stand. If the file is settled, the second run can only add empty lines. On the command line: a check after a successful run passes exactly if all files were like this.", "quantifier": "every accepted source text whose carriage returns are all followed by a line feed, every line ending, every set of files and arguments", "why_tests_cant": "An equivalence between the behaviour of two runs and a condition on the source, over all texts; a test shows single texts.", "anchors": [{"file": "src/formatter/formatting.rs", "symbols": ["format"]}, {"file": "src/formatter/printing.rs", "symbols": ["print"]}, {"file": "src/lib.rs", "symbols": ["pretty_print"]}, {"file": "src/main.rs", "symbols": ["main"]}]}
{"id": "C94", "title": "More line breaks in the source, more in the output", "statement": "Take two accepted files with the same code tokens (comments and white space are free; a `within` is the first thing in both or in none). If there is a line break between two neighbouring tokens of the second wherever there is one in the first, then the output of the second has a line break in front of every token that starts a line in the output of the first. In particular the line breaks in the output of the file with all code on one line are in the output of every version of the file.", "quantifier": "every pair of accepted source texts with the same kinds of code tokens", "why_tests_cant": "A relation between the outputs for all pairs of texts; the wrapping decisions of all rules have to be monotone.", "anchors": [{"file": "src/formatter/formatting.rs", "symbols": ["format"]}, {"file": "src/lib.rs", "symbols": ["pretty_print"]}]}
{"id": "C95", "title": "How much the parser reports", "statement": "For every source text on which the parser does not crash: at most 50 syntax errors are reported about one place (a token, or the end of the file; errors about the end of the file carry the position of the last token), every syntax error carries the position of its place, and every message of the lexer, every token and every comment stands for at least one character of its own. So the number of errors and the number of events are bounded by a linear function of the length of the text, although errors do not always consume a token.", "quantifier": "every source text and entry point", "why_tests_cant": "The parser may report many errors without moving on; only the guard on lookups bounds them, and the bound is about all texts.", "anchors": [{"file": "src/parser/parsing.rs", "symbols": ["expect", "advance_with_error", "nth"]}, {"file": "src/parser.rs", "symbols": ["parse"]}]}
{"id": "C96", "title": "The size of the output", "statement": "For every accepted file: a line of the output is never indented by more levels than there are code tokens above it; the output has at most two lines more per token and comment than the source has; so its length is at most quadratic in the length of the source, with explicit factors. A linear bound does not exist: for every factor there is a file (packages inside packages) whose output is longer than that factor times the source.", "quantifier": "every accepted source text and line ending", "why_tests_cant": "A bound for all nestings and all texts; the indentation that leaks from wrapped left-hand sides has to be counted as well.", "anchors": [{"file": "src/formatter/formatting.rs", "symbols": ["format"]}, {"file": "src/formatter/printing.rs", "symbols": ["print"]}, {"file": "src/lib.rs", "symbols": ["pretty_print"]}]}
{"id": "C97", "title": "What follows does not change what was said before", "statement": "Two texts with the same beginning, parsed without a crash: let a token and the token after it end at least one character before the place where the texts start to differ. Then the tokens up to there are the same, exactly the same messages (of the lexer and of the parser) are reported about everything in front of the first of the two tokens, and the events of the parser are the same until it has taken all tokens in front of it (or to their end). One token less would not do: `type A =` can start two kinds of classes.", "quantifier": "every pair of source texts with a common beginning, correct or not, and every entry point", "why_tests_cant": "Relates two runs on different texts, with any number of errors, for all continuations.", "anchors": [{"file": "src/parser/parsing.rs", "symbols": ["nth", "expect", "advance_with_error", "class_specifier"]}, {"file": "src/parser/lexing.rs", "symbols": ["lex", "lex_source"]}]}
{"id": "C98", "title": "A file is formatted part by part", "statement": "A text made of any number of parts, each accepted on its own: every part but the last ends with a token and a line feed (perhaps with empty lines) and has no wrapped left-hand side, every part but the first starts with a token other than `within` and `final`. Then the whole text is accepted, and its result consists of the results of the parts in the same order, each on a new line, with one empty line exactly where there was at least one. In particular parts without empty lines at their ends can be put in any order, and the results of the parts get the same order; a change in one part changes nothing but its own piece of the result.", "quantifier": "every list of parts, every order of them, every line ending", "why_tests_cant": "Relates the run on a text to the runs on any number of pieces of it.", "anchors": [{"file": "src/formatter/formatting.rs", "symbols": ["stored_definition", "format"]}, {"file": "src/lib.rs", "symbols": ["pretty_print"]}, {"file": "src/parser/parsing.rs", "symbols": ["stored_definition"]}]}
{"id": "C99", "title": "Line breaks that do not matter", "statement": "Two texts with the same tokens and comments in the same order, the first of them accepted. Suppose that they agree in this: next to a comment and in front of the first item, none, one or more line breaks; between two tokens of one list, expression, connection, modification or multi-part description, some line break or none; behind any other `;`, `then`, `else` and `loop`, an empty line or none. Then the second is accepted as well and both have the same result. Between all other tokens (in class headers, in front of `=`, between the words of a declaration, in front of descriptions and annotations) any number of line breaks may be added or removed.", "quantifier": "every pair of texts with the same items, every line ending", "why_tests_cant": "Relates the runs on infinitely many pairs of layouts; it says which of the positions in the source the formatter may look at.", "anchors": [{"file": "src/parser/tree.rs", "symbols": ["start", "end", "is_multiline"]}, {"file": "src/formatter/formatting.rs", "symbols": ["format", "handle_break"]}]}
{"id": "C100", "title": "Replaced entries leave the rest alone", "statement": "Take one or more neighbouring declarations, equations or statements of an accepted file, with their semicolons, and replace them by such entries of another accepted file. The place must be preceded by white space or a semicolon, an equation that comes into an equation section must not begin with `initial`, and the old and the new entries must contain equally many wrapped left-hand sides. Then the file is accepted again, with the new entries in the same place of the same list and read as before. The output for everything in front of the entries and for everything behind them, including comments, line breaks, blank lines and indentation, is unchanged, and the first new entry has the white space in front of it that the old one had.", "quantifier": "all pairs of accepted files, all lists of declarations, equations and statements at any depth, every line ending", "why_tests_cant": "Relates three runs of lexer, parser and formatter for unbounded contents in front of, between and behind the entries; tests can only sample a few edits.", "anchors": [{"file": "src/parser/parsing.rs", "symbols": ["element_list", "equation_section", "algorithm_section"]}, {"file": "src/formatter/formatting.rs", "symbols": ["format", "handle_break"]}, {"file": "src/formatter/printing.rs", "symbols": ["print"]}]}
{"id": "C101", "title": "Added and removed entries leave the rest alone", "statement": "Put one or more declarations, equations or statements of an accepted file, with their semicolons, behind such an entry of another accepted file, with any white space or none between them. Suppose that an equation that comes into an equation section does not begin with `initial` and that the new entries contain no wrapped left-hand side. Then the file is accepted, with the new entries in the same list behind the old ones and read as before, and the output is the old output with one piece put in: everything in front of the new entries and everything behind them, including comments, line breaks, blank lines and indentation, is unchanged. Conversely, if entries without wrapped left-hand sides that follow other entries after white space are removed from an accepted file, the file is accepted again and just their piece of the output goes away.", "quantifier": "all pairs of accepted files, all lists of declarations, equations and statements at any depth, all white space in front of the new entries, every line ending", "why_tests_cant": "Relates three runs of lexer, parser and formatter for unbounded contents in front of, between and behind the entries; tests can only sample a few edits.", "anchors": [{"file": "src/parser/parsing.rs", "symbols": ["element_list", "equation_section", "algorithm_section"]}, {"file": "src/formatter/formatting.rs", "symbols": ["format", "handle_break"]}, {"file": "src/formatter/printing.rs", "symbols": ["print"]}]}
{"id": "C102", "title": "Files that are named several times", "statement": "In a world where no system call fails, a file to which several of the selected paths lead is formatted once per path: after a run that ends with an exit code every file holds exactly what results from formatting its contents as often as it is named (contents that are not UTF-8 or have errors stay as they are). More than twice makes no difference. If all files are in order, formatting succeeds even if several paths lead to the same file. If every file is named at least twice, or formatting is run twice, the check passes afterwards (every carriage return followed by a line feed).", "quantifier": "all worlds without failing calls, all contents, all arguments, directories and links that lead to the same file any number of times", "why_tests_cant": "Needs the contents of every file after arbitrarily many visits of the same file in one run.", "anchors": [{"file": "src/main.rs", "symbols": ["format_files", "write_file", "read_file"]}, {"file": "src/lib.rs", "symbols": ["pretty_print"]}]}
{"id": "C103", "title": "Replaced expressions leave the rest alone", "statement": "Take an expression of an accepted file that stands on one line and replace it by an expression of another accepted file that stands on one line. The place must be preceded by white space, an opening bracket, a comma, a semicolon or an equality sign, and followed by white space, a closing bracket, a comma or a semicolon. Then the file is accepted again, with the new expression read as in its own file. The output for everything in front of it and behind it, including comments, line breaks, blank lines and indentation, is unchanged; the white space in front of it is that of the old expression; and it is itself written on one line, exactly as in its own file.", "quantifier": "all pairs of accepted files, all expressions on one line at any depth, every line ending", "why_tests_cant": "Relates three runs of lexer, parser and formatter; line breaks, indentation and spaces around an expression could depend on its length, its form, its first or its last token.", "anchors": [{"file": "src/parser/parsing.rs", "symbols": ["expression"]}, {"file": "src/formatter/formatting.rs", "symbols": ["format", "expression", "expression_list", "handle_token"]}, {"file": "src/formatter/printing.rs", "symbols": ["print"]}]}
{"id": "C104", "title": "Copied entries look as in their own file", "statement": "If the same text makes up consecutive declarations, equations or statements of two accepted files, no matter in which lists and at what depth they stand, then its two syntax trees have the same form, its first item starts a line in both outputs, and from there on the outputs contain the same tokens and comments of that text with the same spaces, line breaks and blank lines; the indentation of every line relative to that of the first one is the same. If the first lines are indented alike, the characters written for the text are the same.", "quantifier": "all pairs of accepted files, all texts that are entries of lists in both, every line ending", "why_tests_cant": "Relates two runs on different files; the line numbers, the indentation, the enclosing list (section, branch, loop, class) and what stands around could all influence line breaks, blank lines and the places of comments.", "anchors": [{"file": "src/parser/parsing.rs", "symbols": ["element_list", "equation_section", "algorithm_section"]}, {"file": "src/formatter/formatting.rs", "symbols": ["format", "element_list", "equation_section", "algorithm_section", "handle_token"]}, {"file": "src/formatter/printing.rs", "symbols": ["print"]}]}
{"id": "C105", "title": "Entries can change places", "statement": "Let two groups of consecutive declarations, equations or statements of one list change places in the source of an accepted file, where both places are preceded by white space or a semicolon and both groups have the same number of wrapped left-hand sides. Then the file is accepted again. The output for everything in front of, between and behind the groups, including comments and blank lines, is unchanged; each group starts its line with the white space that the other one had; and from its first item on, each group is written as before, up to the indentation of its new place. If there are no wrapped left-hand sides in the groups and between them, the two pieces of the output just change places, character by character.", "quantifier": "all accepted files, all pairs of groups of entries in lists at any depth, every line ending", "why_tests_cant": "Relates two runs on different sources in which all line numbers in and after the groups differ; any carry-over from one entry to the next one would show only for particular pairs.", "anchors": [{"file": "src/parser/parsing.rs", "symbols": ["element_list", "equation_section", "algorithm_section"]}, {"file": "src/formatter/formatting.rs", "symbols": ["format", "element_list", "equation_section", "algorithm_section", "handle_token"]}, {"file": "src/formatter/printing.rs", "symbols": ["print"]}]}
{"id": "C106", "title": "Runs that stop half-way", "statement": "A run on files that panics has either found nothing to do yet (the search failed, nothing is printed or written), or the selected files divide into those in front, one file and those behind: about the files in front everything has been reported or written that a complete run reports and writes; of the file itself at most an initial part of its formatted text has been written, and nothing is printed about it; the files behind are not touched and nothing is printed about them. In a world where no system call fails, a run on a finite directory tree panics exactly if the contents of a selected file crash the parser, and then it stops in front of the first such file; otherwise it ends with an exit code (provided the run only checks, or no file is named twice, or every carriage return is followed by a line feed). If the directories have no end, the search never ends and nothing is printed or written.", "quantifier": "all worlds, all stores, all argument vectors, all failures of system calls", "why_tests_cant": "Crashes and failing system calls cannot be produced at will in a test, and absence of effects on the remaining files is a statement about all of them.", "anchors": [{"file": "src/main.rs", "symbols": ["main", "format_files", "get_files_from_dir", "read_file", "write_file"]}, {"file": "src/lib.rs", "symbols": ["pretty_print"]}]}
{"id": "C107", "title": "Entries put in front of others", "statement": "Put declarations, equations or statements from any accepted file in front of consecutive entries of a list in another accepted file, with any white space between the two, where the place is preceded by white space or a semicolon and neither the new nor the old entries have a wrapped left-hand side. Then the file is accepted again. The output in front of the place is unchanged; the first new entry starts its line with exactly the white space that the old one had, blank line included; the old entries follow on a line of their own with the same indentation and with the same characters as before, and everything behind them is unchanged. Conversely, entries without wrapped left-hand sides can be taken away in front of others, together with the comments between the two: what follows moves into their place with the white space they had, and is written with the same characters.", "quantifier": "all accepted files, all groups of entries in lists at any depth, all white space between them, every line ending", "why_tests_cant": "Relates runs on different sources in which all line numbers behind the place differ; whether the first entry of a list is treated alike whatever it is cannot be tested for all entries.", "anchors": [{"file": "src/parser/parsing.rs", "symbols": ["element_list", "equation_section", "algorithm_section"]}, {"file": "src/formatter/formatting.rs", "symbols": ["format", "element_list", "equation_section", "algorithm_section", "handle_token"]}, {"file": "src/formatter/printing.rs", "symbols": ["print"]}]}
{"id": "C108", "title": "What stands between two entries is formatted on its own", "statement": "The white space and comments between two neighbouring declarations, equations or statements of a list are written in the same way whatever the two entries are and whatever file and kind of list they are in: if two accepted files have the same text between two neighbouring entries, the comments there come out with the same line breaks, spaces and empty lines in both outputs, and so does the break in front of the second entry, up to the indentation of the two lists; at the same level the characters are the same. If there is only white space between the entries, the second one starts a new line, after one empty line if there are at least two line feeds and directly otherwise.", "quantifier": "all accepted files, all pairs of neighbouring groups of entries in lists at any depth, all texts between them", "why_tests_cant": "Relates two runs on different files; that no entry influences the comments behind it cannot be tested for all entries.", "anchors": [{"file": "src/parser/parsing.rs", "symbols": ["element_list", "equation_section", "algorithm_section"]}, {"file": "src/formatter/formatting.rs", "symbols": ["format", "element_list", "equation_section", "algorithm_section", "handle_token"]}, {"file": "src/formatter/printing.rs", "symbols": ["print"]}]}
{"id": "C109", "title": "Different programs stay different", "statement": "Two accepted files have the same formatted output exactly if the same items are printed with the same white space in front of each. In particular two files with the same output have the same code tokens, the same syntax tree and the same printed comments, so that no two files of different code are ever given the same contents. Both hold provided every carriage return is followed by a line feed; with a carriage return alone behind a line comment two files of different code can have the same output.", "quantifier": "all pairs of accepted files, both line endings", "why_tests_cant": "A formatter that merged two programs would only be noticed on that pair; the pairs cannot be enumerated.", "anchors": [{"file": "src/lib.rs", "symbols": ["pretty_print"]}, {"file": "src/formatter/formatting.rs", "symbols": ["format", "handle_token"]}, {"file": "src/formatter/printing.rs", "symbols": ["print"]}, {"file": "src/parser/lexing.rs", "symbols": ["lex_linecomment"]}]}
{"id": "C110", "title": "Several runs at the same time", "statement": "Let several runs of the tool go on at the same time, their steps (reading a file, truncating a file, writing a byte, printing) taken in any order. A run none of whose files is changed by another run is not affected: what it has printed and written so far is what it prints and writes first when it is alone, and when it is over it has ended in the same way and with the same effects as alone. Runs that only check disturb nobody: beside any number of them a run does, and leaves behind, what it does alone. A file that no run is to change stays as it is. Runs never wait for each other. But two formatting runs on one file can both be successful and leave a file that consists of a line break, although each alone formats the code; and a check beside a formatting run can fail although the file is in order before and after.", "quantifier": "all numbers of runs, all orders of steps, all worlds, stores and arguments", "why_tests_cant": "The orders of steps of several processes cannot be enumerated or produced at will in a test.", "anchors": [{"file": "src/main.rs", "symbols": ["main", "format_files", "read_file", "write_file"]}]}
{"id": "C111", "title": "Runs one after another", "statement": "Take any sequence of runs of the tool, with any arguments, the paths leading to other files from run to run if they like, in worlds where no system call fails. At the end a file contains its original contents formatted some number of times: at most as often as the runs were asked to format it, and exactly as often if every run ended with an exit code (others are stopped by a crash of the parser or search endlessly). If every carriage return in it is followed by a line feed, then a file that has been formatted twice is never changed again by any later run, and its contents depend only on whether it has been formatted never, once or more often; the order of the runs, what else they were asked for, and the checks in between do not matter. If all files were without errors and have been formatted twice, a check at the end passes.", "quantifier": "all sequences of runs, all worlds without failing system calls, all stores and arguments", "why_tests_cant": "Sequences of runs cannot be enumerated in tests.", "anchors": [{"file": "src/main.rs", "symbols": ["main", "format_files", "get_files_from_dir", "read_file", "write_file"]}, {"file": "src/lib.rs", "symbols": ["pretty_print"]}]}
{"id": "C112", "title": "What the check looks at", "statement": "Let a file be accepted, every carriage return in it followed by a line feed. The check of the file passes if and only if three things hold: every comment of the file is one that is printed; in front of every token and every comment stands exactly the white space which the layout rules (C56) prescribe for it; and behind the last one stands exactly one line break. Otherwise there is a first place at which one of the three fails, up to which the file and its formatted text agree. On the command line: in a world without failing system calls `--check` ends with exit code 0 exactly if all selected files are Modelica files, accepted and of this kind.", "quantifier": "all accepted files, both line endings, all worlds, stores and arguments", "why_tests_cant": "A test compares texts; that there is no other reason for failing than the three, at any place of any file, takes a proof.", "anchors": [{"file": "src/main.rs", "symbols": ["format_files"]}, {"file": "src/lib.rs", "symbols": ["pretty_print"]}, {"file": "src/formatter/printing.rs", "symbols": ["print"]}, {"file": "src/formatter/formatting.rs", "symbols": ["format"]}]}
{"id": "C113", "title": "The narrowest and the widest layout", "statement": "Take the code tokens of an accepted file and write them on one line with a space behind each, or on a line each. Both texts are accepted and have the same tokens. Whatever accepted file has these tokens (white space and comments are free; if it starts with `within`, no comment stands in front), every token that starts a line in the output of the first text starts a line in the output of the file, and every token that starts a line there does so in the output of the second text. The output of the second text is left as it is by another run (every carriage return of the file being followed by a line feed).", "quantifier": "all accepted files and all files with the same code", "why_tests_cant": "The texts with the same code are infinitely many, and the bounds are compared with all of them.", "anchors": [{"file": "src/formatter/formatting.rs", "symbols": ["format"]}, {"file": "src/formatter/printing.rs", "symbols": ["print"]}, {"file": "src/lib.rs", "symbols": ["pretty_print"]}]}
{"id": "C114", "title": "The size of the syntax tree", "statement": "The syntax tree of an accepted file with n tokens has at most 26 n + 1 nodes, and the parser records at most 273 n + 2 events.", "quantifier": "all accepted files", "why_tests_cant": "A test measures some files; the bound is about files of any size and shape.", "anchors": [{"file": "src/parser/parsing.rs", "symbols": ["stored_definition"]}, {"file": "src/parser/tree.rs", "symbols": ["build_tree"]}, {"file": "src/parser.rs", "symbols": ["parse"]}]}
{"id": "C115", "title": "Formatting parts of files", "statement": "A text that the parser, started at any rule of the grammar but four (stored definition, composition, component list, output expression list), reads to its end as that rule, without errors and with at least one token, is formatted without a crash. All its code tokens are printed once each and in order; nothing but comments is dropped, and of these exactly those whose next code token does not start a line. When the source has no lone carriage return the result is read as the same tokens again. That no errors are reported is not enough: formatting an empty text read as a description string crashes, and so does formatting a text of which only a first part was read.", "quantifier": "all entry rules but four, all texts read whole, both line ends", "why_tests_cant": "The one test of the library formats one expression.", "anchors": [{"file": "src/lib.rs", "symbols": ["pretty_print"]}, {"file": "src/formatter/formatting.rs", "symbols": ["format"]}, {"file": "src/parser/tree.rs", "symbols": ["build_tree"]}, {"file": "src/parser.rs", "symbols": ["parse"]}]}
{"id": "C116", "title": "Reading parts of files", "statement": "The parser started at any rule of the grammar but the list of outputs reads every parsable tree of that rule: a text whose tokens are the leaves of such a tree is read without errors as exactly this tree. The grammar is unambiguous at each of these rules: no two trees of a rule have the same leaves, and the kinds of the tokens tell the shape. Unless the rule is one of the four of C115, the text is formatted, and the formatted text is read from the same rule as a tree of the same shape with the same tokens (no lone carriage returns in the source). Started at the list of outputs, which may be empty, the parser crashes on the empty text.", "quantifier": "all rules but one, all trees, all texts with their tokens, both line ends", "why_tests_cant": "Each rule has infinitely many trees; the tests start the parser at a few rules, on one text each.", "anchors": [{"file": "src/parser/parsing.rs", "symbols": ["events", "output_expression_list"]}, {"file": "src/parser.rs", "symbols": ["parse"]}, {"file": "src/parser/tree.rs", "symbols": ["build_tree"]}, {"file": "src/lib.rs", "symbols": ["pretty_print"]}]}
{"id": "C117", "title": "Parts of files follow the layout rules", "statement": "A text read as any rule of the grammar, but for the four of C115 and the modification, is formatted exactly as the layout rules of the reference formatter (C56) prescribe for its syntax tree, from level zero and with no white space in front: white space, blank lines, levels of indentation and the placing of comments.", "quantifier": "all rules but five, all texts that one of them matches completely, all line ends", "why_tests_cant": "The text depends on the whole tree and on the positions of all tokens and comments; the tests compare a few texts for a few rules.", "anchors": [{"file": "src/formatter/formatting.rs", "symbols": ["format"]}, {"file": "src/formatter/printing.rs", "symbols": ["print"]}, {"file": "src/lib.rs", "symbols": ["pretty_print"]}, {"file": "src/parser/tree.rs", "symbols": ["build_tree"]}]}
{"id": "C118", "title": "Cutting parts out of files", "statement": "Take a part of an accepted file that belongs to a self-contained rule of the grammar (C86), other than the four of C115 and the modification, and a text with tokens of the same kinds and comments in the same places as in the part (so the part itself, cut out). This text is read from that rule without errors, and its formatted text has no white space in front, and line by line the layout that the part has in the formatted file: the same white space, blank lines and comments, with every line indented by the same number of levels less, and that number is the level of the part if it starts a line in the file.", "quantifier": "all accepted files, all parts of the given rules, all texts with the same layout of tokens, all line ends", "why_tests_cant": "Formatting the file and formatting the part walk through different trees from different states; tests compare single cases.", "anchors": [{"file": "src/lib.rs", "symbols": ["pretty_print"]}, {"file": "src/parser.rs", "symbols": ["parse"]}, {"file": "src/formatter/formatting.rs", "symbols": ["format"]}, {"file": "src/formatter/printing.rs", "symbols": ["print"]}]}
{"id": "C119", "title": "Clean white space in parts of files", "statement": "The formatted text of a part of a file (a text read as any rule but the four of C115) has no space at the end of a line and never two blank lines in a row, except inside of strings and comments. It ends with its last token and starts with its first one; a modification has one space in front.", "quantifier": "all rules but four, all texts that one of them matches completely, both line ends", "why_tests_cant": "White space is put together from marks of many functions; the tests look at a few texts.", "anchors": [{"file": "src/formatter/formatting.rs", "symbols": ["format"]}, {"file": "src/formatter/printing.rs", "symbols": ["print"]}, {"file": "src/lib.rs", "symbols": ["pretty_print"]}]}
{"id": "C120", "title": "Formatting parts of files settles", "statement": "A text read as any rule, but for the four of C115 and the modification, is formatted; the formatted text with a line end is read from the same rule without errors and formatted again; and this second text, with a line end, is read without errors and formatted to itself (no lone carriage returns in the source). The second run may change the text.", "quantifier": "all rules but five, all texts that one of them matches completely, both line ends", "why_tests_cant": "Whether a third run changes something depends on the line breaks that the first two put into each list and operation of the text.", "anchors": [{"file": "src/lib.rs", "symbols": ["pretty_print"]}, {"file": "src/parser.rs", "symbols": ["parse"]}, {"file": "src/formatter/formatting.rs", "symbols": ["format"]}, {"file": "src/formatter/printing.rs", "symbols": ["print"]}]}
{"id": "C121", "title": "Parts of files, formatted alone, look as in the file", "statement": "The text of a node of a file that formats, from the first character of its first token to the last character of its last one, is read without errors from the rule of that node (one of the rules of C118), with the same tokens. Formatted on its own it gives the same tokens and comments, with the same texts and the same white space between them as in the formatted file, only that lines are indented by as many levels less as the node is in the file.", "quantifier": "all files that format, all their nodes of the rules of C118, both line ends", "why_tests_cant": "A node may be any part of any file; the text is read anew with other line numbers, without what is around it, and by another entry of the parser.", "anchors": [{"file": "src/lib.rs", "symbols": ["pretty_print"]}, {"file": "src/parser.rs", "symbols": ["parse"]}, {"file": "src/formatter/formatting.rs", "symbols": ["format"]}, {"file": "src/formatter/printing.rs", "symbols": ["print"]}]}
