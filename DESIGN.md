# Formal model of mofmt in Rocq/Coq 8.16.1

Target: ErykMroczek/mofmt at the commit in `/repo` (read as text, never built or run).
Properties: `properties.jsonl`. Status and theorem names per property: `MANIFEST.json`.
Wrong programs the theorems were tried on: `seeded/LOG.jsonl`.
Build: `coq_makefile -f _CoqProject -o Makefile && make -j4` in `rocq/` (about two minutes).

## Trusted base

1. The Coq 8.16.1 kernel, including its virtual machine (`vm_compute` is used for the static
   checks and the examples; `coqchk` re-checks those with the ordinary conversion).
2. Axioms: none. Every theorem named in `MANIFEST.json` is followed by `Print Assumptions`, and each
   of these prints `Closed under the global context`. (`vcheck` and `coqchk` list seven constants
   `Coq.ssr.ssrunder.Under_rel.*`. They belong to a module type of the standard library that is
   loaded by other standard library files. No theorem here depends on them.)
3. The transcription of the Rust sources into the model files below. Definitions cite the file and
   the lines they transcribe. The transcription is *tested*, not proved, by formatting the project's
   own `tests/samples/code-input.mo` with the model and comparing with `code-output.mo`
   (`SampleTest.v`).
4. That the `Spec*.v` files say what the English statements say. They are short and use no function of the
   model, apart from data types (tokens, syntax trees, events, effects) and the entry points
   `parse`, `pretty_print` and `run`.

### What is modelled

| Rust | Coq | how |
|---|---|---|
| `char`, `&str`, `String` | `N`, `list N` (`Base.v`) | a text is a list of code points; byte offsets are computed with `utf8_len` |
| panics | `res A := Ok \| Panic r \| OutOfFuel` | every `panic!`, `assert!`, `unwrap`, slice out of range and `usize` underflow is a value; fuel is shown to suffice |
| `src/parser/tokens.rs`, `syntax.rs`, `events.rs` | `Tokens.v`, `Syntax.v`, `ParserCore.v` | all kinds, names for messages, positions; the enumerations are generated by `tools/gen_enums.py` |
| `src/parser/lexing.rs` | `Lexer.v` | all functions, with positions, error messages, and the panic of `source[a..b]` off a character boundary |
| `src/parser/parsing.rs` 18-251 | `ParserCore.v` | a statement language for rule bodies and its interpreter, i.e. `Parser` with `lifes`, error recovery, events |
| `src/parser/parsing.rs` 253-1546 | `Grammar.v` | one body per Rust function, statement by statement |
| `src/parser/tree.rs` | `Tree.v` | `build_tree` as the stack machine it is, with its asserts; `Tree` methods |
| `src/formatter/markers.rs`, `printing.rs` | `Printer.v` | complete |
| `src/formatter/formatting.rs` | `Formatter.v` | all functions: what happens before the loop over the children, the loop body as actions on a finite view of the child, what happens after it |
| `src/parser.rs`, `src/lib.rs` | `Lib.v` | `parse`, `pretty_print`, error strings |
| `src/main.rs` | `Cli.v` | all functions, on a file system with bytes, with faults |
| UTF-8 in the standard library | `Utf8.v` | `String` to bytes, `String::from_utf8`, `Path::display` |
| `Path` in the standard library | `Cli.v` | `join`, `file_name`, `extension`, for Unix paths |

### What is simplified or not modelled

* `usize` is unbounded; only underflow is modelled (as a panic, as in a debug build; the theorems show that
  it does not happen in the formatter). Files of 2^64 bytes and lines are out of scope.
* Stack overflow and exhausted memory are not modelled. The real stack overflows if the
  recursion is deep; C85 says how deep it can be.
* The platform is a parameter `eol`: LF or CRLF. Paths are those of Unix.
* The file system (`Cli.world`): what a path leads to is a fixed function, so links and hard links
  (two paths, one file) are included, but files that appear or vanish during the
  run are not, nor processes other than the tool. Contents change only through the tool (several runs of it at the same
  time: C110 only). Every system call may fail, as an oracle
  decides; a write may stop after any number of bytes; and "killed at any moment" is every
  prefix of the list of effects. Texts of operating system errors are a parameter.
* Console output is a list of texts, each complete or not printed at all.
* Locking, buffering, permissions, file times are not modelled.
* `#[cfg(test)]` modules and the build files are not part of the model.

## Structure

Three layers: model files (table above), specifications `Spec*.v`, and proofs, ending in `Props*.v`. Every
`Props*.v` states properties as theorems, prints their assumptions, and shows with `Example`s that the
hypotheses are met by non-trivial cases. False properties are proved in the form `..._refuted` (there is a run that
violates it) next to the strongest true form found.

| files | content |
|---|---|
| `SpecLex`; `LexInv`, `LexScan`, `LexSpecProofs`, `LexMain`, `LexFacts`; `PropsLexer` | tokens |
| `SpecPieces`; `LexAll`; `PropsScan` | tokens and errors of every text |
| `SpecGrammar`, `SpecLanguage`; `Regex`, `ParserSem`, `ParserFuel`, `ParserGuard`, `ParserGrammar`, `ParserTree`, `ParserFacts`, `Recognise`; `PropsParser` | parsing, soundness |
| `Looks`, `Predict`, `PredictOk`, `ParserComplete`; `PropsLanguage` | parsing, completeness |
| `LexCut`, `ParserFirst`; `PropsErrors` | the first syntax error |
| `SpecRecover`; `ParserSkips`, `ParserLimit`; `PropsRecover` | all syntax errors and the skipped tokens |
| `SpecDepth`; `ParserDepth`; `PropsDepth` | depth of the recursion |
| `SpecLocal`; `FmtLocal`; `PropsLocal` | the same part in different surroundings |
| `SpecNest`; `FmtNest`; `PropsNest` | classes alone and inside a package |
| `SpecBlank`; `FmtBlank`; `PropsBlank` | where empty lines come from |
| `SpecCode`; `FmtCode`; `PropsCode` | the layout of code without comments |
| `SpecOrder`; `CliOrder`; `PropsOrder` | the order of files |
| `SpecSettled`; `FmtSettled`, `FmtFixed`; `PropsSettled` | when one run is enough |
| `SpecInsert`; `FmtInsert`; `PropsInsert` | adding a comment |
| `SpecHang`; `FmtHang`; `PropsHang` | one run with any comments |
| `SpecMore`; `FmtMore`; `PropsMore` | more line breaks |
| `SpecCount`; `ParserCount`; `PropsCount` | number of messages and events |
| `SpecSize`; `FmtSize`; `PropsSize` | the size of the output |
| `SpecPrefix`; `ParserPrefix`; `PropsPrefix` | texts with the same beginning |
| `SpecParts`; `PropsParts` | files made of parts |
| `SpecFree`; `FmtFree`; `PropsFree` | line breaks that do not matter |
| `SpecEdit`; `LexSplice`; `FmtEdit`, `FmtSplice`; `PropsEdit` | replaced entries leave the rest alone |
| `FmtGrow`; `PropsGrow` | added and removed entries leave the rest alone |
| `SpecTwice`; `PropsTwice` | files that are named several times |
| `SpecCrash`; `PropsCrash` | runs that stop half-way |
| `CliSteps`; `SpecTogether`; `CliTogether`, `PropsTogether` | main.rs as a tree of steps; runs at the same time |
| `SpecHistory`; `PropsHistory` | runs one after another |
| `SpecTidy`; `PropsTidy` | what the check looks at, place by place |
| `SpecExtremes`; `PropsExtremes` | the code on one line and on as many lines as possible |
| `SpecCensus`; `PropsCensus` | how many nodes and events there are |
| `SpecEntry`; `FmtEntry`; `PropsEntry` | formatting texts read from other rules |
| `ParserStart`; `PropsStart` | reading texts from other rules |
| `SpecAlone`; `PropsAlone` | layout rules for texts read from other rules |
| `PropsCut` | parts cut out of files |
| `PropsClean` | white space in parts of files |
| `PropsAgain` | formatting parts of files twice |
| `PropsExcise` | the text of parts of files, formatted alone |
| `SpecExpr`; `FmtExpr`, `LexExpr`, `FmtExprText`; `PropsExpr` | one-line expressions in the place of others |
| `SpecCopy`; `FmtCopy`; `PropsCopy` | the same entries in different files |
| `FmtSwap`; `PropsSwap` | entries that change places |
| `FmtFront`; `PropsFront` | entries put in front of others |
| `FmtGap`; `PropsGap` | the text between neighbouring entries |
| `PropsTell` | files with the same output |
| `SpecLayout`; `FmtPlan`, `FmtShape`, `FmtAbs`, `FmtTables`, `FmtSound`, `FmtExec`, `FmtTop`, `FmtFacts`, `FmtRelex`, `FmtNeat`; `PropsFormat`, `PropsSpacing` | formatting: tokens, comments, white space |
| `SpecNodes`, `SpecGaps`; `FmtTree`, `FmtLists`, `FmtOps`, `FmtWrap`; `PropsTree`, `PropsWrap`, `PropsGaps` | formatting in terms of the syntax tree |
| `SpecSpacing`; `FmtSame`; `PropsSame` | changes of white space in the source |
| `SpecReference`; `FmtNode`, `FmtReference`; `PropsReference` | the reference formatter |
| `SpecLevels`; `FmtLevels`; `PropsLevels` | levels of indentation |
| `SpecTold`; `FmtMoved`, `FmtConcat`; `PropsModular`, `PropsEol` | comments, beginning and end, other names, files one behind the other, line breaks of Windows |
| `FmtBreaks`, `FmtAgree`, `FmtPrinted`, `FmtStable`, `FmtOnce`; `PropsStable` | formatting repeatedly |
| `FmtNear`; `PropsVertical` | empty lines of the source |
| `SpecUtf8`, `SpecCli`; `Utf8Facts`, `CliFacts`, `CliFind`; `PropsCli`, `PropsBytes` | the command line tool |

## How the properties are proved

### Lexing (C01-C10, C66, C78)

`lexes s items` (SpecLex) says that a text is a sequence of white space and lexemes with the longest-match
conditions. `LexInv` has invariants of the state machine that hold also after errors (positions, order,
numbering). `LexScan` describes one round as a pure scanner; `LexSpecProofs` proves
that the scanner recognises exactly the lexemes; `LexMain` puts the rounds together: the lexer
reports no error exactly if `lexes s items` holds for some items, which are unique and are its tokens.
C06, C08, C09 are false (`// ą`, `/*/`, `1e`), with exact true forms. C78 gives the whole result of the lexer
for every text: `pieces` adds rejected pieces to `lexes`, and `LexAll` follows the state across errors, where
the byte position noted by the lexer may lie inside a character.

### Parsing (C11-C19, C46, C47, C60-C62, C67, C68, C80, C81, C85, C95, C97, C114, C116)

Rules are data (`Grammar.body k`), so that a property of all rules is a property of the interpreter plus a
decidable check of the bodies, which is proved sound for all inputs and run by `vm_compute`.

* C11: potential `remaining * (limit + 1) + lifes`, and a rank for chains of calls without a lookup.
* C13: static count of lookups between two advances (34, the limit is 100).
* C14, C15: the events of any run flatten a forest whose leaves are the consumed tokens; `build_tree` on them
  never fails.
* C16: bodies are translated to regular expressions over their children and compared with the productions of the
  Modelica specification by partial derivatives (`Regex.v`).
* C17, C18: runs depend on kinds only; error lists are sorted and point at tokens.
* C60-C62: `Looks` computes what the next three tokens can be, for every rule in every context;
  `Predict` runs a rule against the words of its production under such lookaheads and checks that all decisions
  are right; `PredictOk` proves that rules that pass read every word of their production;
  `ParserComplete` combines it to: accepted exactly if there is a syntax tree, and the tree is unique.
* C12, C19, C46, C47 are false; witnesses in `PropsParser`.
* C67, C68: `ParserFirst` follows a run up to its first error: what has been consumed is an initial part of
  a conforming tree, which is completed by a computed smallest tree for every rule still open. `LexCut`
  carries this over to the text: a correct source can be cut in front of a token and continued with any
  spelled tokens. That no correct file agrees up to one token after the error follows because the run
  decides by two tokens of lookahead only, so an agreeing file would halt in the same way.
* C80: `ParserSkips` follows a run across its errors and counts the nodes of kind `Error`, which survive pruning.
* C114: a rule with a single child has a larger rank (C85) than the child, and in every production the symbols that may be
  empty are at most one more than the others.
* C116: the prediction check of C60, with the end of the input as a possible follower of every rule but one.
* C81 is false (nine unclosed parentheses); `ParserLimit` compares runs with different limits of the guard.
* C95: `ParserCount.counted`: twice the number of errors about the current place, plus the lookups left, is at most 100.
* C97: `ParserPrefix.exec_two`: two runs on token lists with the same beginning do the same until they are two tokens before its end, since no lookup reaches further than two tokens (`body_low`).
* C85: a rule that covers the same tokens as one of its parts has a higher rank than the part (a check of the productions);
  ranks go up to 12. The fuel of the interpreter bounds the depth of the other runs.

### Formatting (C20-C37, C48, C49, C52-C56, C64, C69-C77, C82, C84, C86-C89, C92, C94, C96, C98-C101, C103-C105, C107-C109, C112, C113, C115, C117-C121)

* `FmtPlan`: the formatting functions only produce a plan, a list of operations, which does not depend on the
  comments. `FmtExec` carries out plans with comments: the printed markers are an *arrangement* of the
  items of the source (`SpecLayout`: items with the white space in front of them).
* `FmtAbs`: abstract interpretation of the loops over all trees of the grammar. Tables (`FmtTables`, generated, and
  checked by a verified checker) give the first and last tokens and the possible white space requests between
  neighbours for each function. `FmtSound` proves the tables right: plans exist (C20), push every token
  once and in order (C21), and never go below their indentation (C27).
* `FmtNeat`: `accepted_layout`, the statement most properties start from; properties of pairs of neighbours
  (C29, C30, C33-C36, C48, C49) are checks of the tables.
* C22, C23: the printed items are read again (`FmtRelex`), with no lone carriage returns.
* C24-C26: comments keep their place relative to the tokens; exact description of those that are lost.
* C31: runs on sources that differ in horizontal white space are the same (`FmtSame`).
* C34, C37, C52-C54: from nodes of the tree to the white space between their tokens (`FmtTree` ff.).
* C55: the space between two tokens on a line as a function of their kinds and rules (`SpecGaps`).
* C56: `SpecReference.reference` is a formatter written as rules about trees. `FmtNode` checks all states of all loops
  against the rules, with the exact indentation; `FmtReference` lifts it to trees, and
  `PropsReference` to the printed text. It implies most of the others; they are proved separately,
  so that they can be read (and fail) independently.
* C69-C73: `FmtLevels` follows the arguments of the reference formatter from the root to a node (`seat`). The
  level of a node is that of the line-leading node around it plus what the rules in between add; checks of
  the productions say which rules those can be. The properties need `leak = 0` (no wrapped left-hand side).
* C112: a text equal to its output has the items of its output (C22), so no comment is dropped, and white space in front
  of a lexeme can be read off a text in one way only.
* C113: C94 compares with the two texts; if every token stands on its own line, every list with two tokens spans lines, so
  the tree is settled (C91).
* C115: in the tables (`FmtTables`) every rule but the list of outputs may be the root; `exec` needs no
  more than that no line break comes before the first token. The four other rules break or end with white space.
* C117: as C56; what may come first in a part is checked to have no white space in front.
* C118: the tokens of the text take the places of those of the part in its tree, which is then found (C116); both layouts are excerpts of the reference layout (C56, C117), compared as in C86.
* C120: as C57; the steps of `FmtStable` need no more of a text than `viewed` says, which holds for parts too.
* C121: C118 for the very text of a node; that it has the tokens and comments of the node is shown with the cuts of `FmtSplice`.
* C109: the output has one reading (C22, uniqueness of `lexes`), so equal outputs consist of the same items; the white space in front of an item is the longest run of blanks before it, and `white_text` is injective.
* C108: the items between two neighbouring entries are comments, told from the text between them alone; in the reference layout (C56) the second entry has the place `Below Kept` after a semicolon, so that these comments go through `behind` and `rows` with distances that do not depend on the place in the file.
* C107: C100 (the old entries give way to the new ones), then C101 (the old ones come back behind them); C104 for their looks, `pieces` for the levels. The other way the pair gives way to its second half by C100.
* C105: C100 twice (first the second group gives way to the first one, then the first one to the second), with the pieces identified by their places in the text; C104 for their looks, `pieces` for the levels.
* C104: the spots of entries, apart from the first and from the rule of the semicolons, are those of a fixed `row` (`kids_row`), at the level of the first one; rows of shifted trees are
  `peer`s (`row_peers`), and weaving peers with shifted items gives the same white space (`weave_twin`); the trees have the same shape by `node_unique` (`same_trees`).
* C103: `LexExpr`: characters around an expression behind and before which items end; `FmtExprText`: the tree with the other expression is parsable (no equation begins with an `Expression` node, so
  `barred` does not matter), hence read (`express`); `FmtExpr`: two expressions on one line are `peer`s, nodes around peers are peers (`peer_up`, `kindred_plug`), and the tables `leaders`, `enders`, `openings`,
  `endings` show that the spaces around do not depend on the tokens of the expression (`swap_layout`).
* C101: the old entries with the new ones behind them are a text of entries (`phrase_join`) that takes the place of the old ones (`paste_core`, as for C100); `FmtEdit`: then the old positions are a part of the new ones (`kin_insert`, `insert_layout`).
* C100: `LexSplice`: the items of a part of a text do not depend on what is around it (`walks_any`, `cut_before`); `FmtEdit`: the production of a list allows any number of entries (`words_swap`, a table over the automata of the productions), and the positions of all tokens outside the entries are the same (`kin_plug`, `edit_layout`); `FmtSplice` builds the new tree from the two old ones (`node_swap`, `tree_read`) and puts this together (`paste`).
* C99: `FmtFree`: `tied` marks the tokens inside lists and expressions; `tied_agrees` shows that the decisions about wrapping depend on these only, `spots_chain` that empty lines are kept only behind four kinds of tokens (a table over the grammar), `weave_loose` puts both together.
* C98: induction with C77; `first_stays` says that the first token keeps its place when text is added behind.
* C74, C75: from the definition of `weave`, which puts comments between the items. C76, C77: `FmtMoved` shows
  that the reference formatter looks only at kinds of tokens and at differences of lines (`moved_spots`,
  `weave_moved`). C76 relates the runs on two texts by it; for C77 `FmtConcat` builds the items, positions and
  the tree of two texts written one behind the other from those of each.
* C82: a text and its conversion are `retold`, and items with the same number correspond.
* C84: `FmtNear` compares differences of lines only up to 2; wrapping decisions are the same by `FmtOnce.kin_agrees`,
  and comments and empty lines by following `weave` on both item lists.
* C86: a node with given tokens has only one tree (`FmtLocal.node_unique`: put the other node in its place and use C61), and
  of the arguments of `spots` only position and level reach such a node; levels just add up (`spots_raise`).
* C87: the text in the package is read as intended (`FmtNest.reading_package`, from the completeness of lexer and parser), its
  spots are those of the file raised by one level (`listed_first`, `package_spots`), and so is what is woven from them.
* C88: a spot of the reference formatter has an automatic empty line exactly for the tokens of `SpecBlank.automatic`
  (`FmtBlank.always_spots`, `automatic_spot`); `weave_blank` traces any other empty line to a distance in the source. The distance is
  measured from the last token or comment that starts a line, so a comment of several lines behind code adds one (`C88_refuted`).
* C89: the code of a woven layout is a function of the spots (`FmtCode.code_weave`), and spots only depend on where lines
  break between tokens (`FmtOnce.kin_agrees`); `wiped_items` follows the lexer through both texts.
* C96: `FmtSize.spots_paced`: every level a child gets in addition to its node is paid for by a token in front of it (a check of the productions).
* C94: `FmtMore.more_breaks`: every decision of the reference rules grows with the line breaks between tokens.
* C93: `FmtHang.put_next` compares the group of comments in front of one token in both runs: equal, or one more empty
  line exactly if the last comment behind the code has two lines and the next item starts where it ends.
* C92: the tokens behind the new comment are moved by a number of lines (`FmtMoved`), and the spots stay the same
  (`FmtCode.reading_strip`); only the group of comments in front of one token differs (`FmtInsert.put_behind`, `put_own`).
* C25, C28, C32, C54, C88 are false; true forms beside them.

### Formatting repeatedly (C57-C59, C83, C91, C93)

By C56 the output is that of the reference rules, which look at line breaks of the source. `FmtBreaks`: a
token that starts a line after the first run does so after the second. `FmtAgree`: the second and the third run see
the same decisions at every node. `FmtPrinted`: lines of printed texts, comments printed again.
`FmtStable`: `twice_stable`. `FmtOnce`: if all tokens keep their line breaks, every node asks for the same layout again,
and comments are printed again where they stand.
C91: `SpecSettled.settled` is a condition on the tree of the source. `FmtSettled` goes through the rules: a line break
that the first run adds inside a node is caused by a description, annotation or constraining clause in it, or the node was
wrapped before. `FmtFixed`: if there is no unsettled list, both runs decide alike at every node; if there is one, it
is wrapped by the second run only.

### Command line tool (C38-C45, C50, C51, C58, C63, C65, C79, C90, C102, C106, C110, C111)

`Cli.v` is a state monad over a store of bytes with a trace of effects. `CliFacts` proves what each
function adds to the trace (`adds`), up to `processed_all`: what happens to each file in order. `CliFind` relates
the search to `SpecCli.listing` and `selected`. C38-C40, C42 hold for every prefix of the trace. C45: dispatch
is a function of the argument vector, including arguments that are not UTF-8. C63: the conversions are
proved against RFC 3629 and the replacement practice of the Unicode standard. C42, C43, C44 are false.
C102: each visit of a file treats its contents (`handled_all_treated`); by C57 the second time settles them
(`treated_fixed`).
C106: `processed_all` is cut at the file that stops it; contents that crash the parser are never written over, and by
C23 formatted texts do not crash it.
C110: `CliSteps` is main.rs once more, as a tree of steps that does not know the store; `alone` proves that played alone
it is `run`. `unaffected` is an induction over the steps of all runs: those of the others change no file the run looks
at (`main_within`). Here a file is read in one step and a byte is written to the end of the file; runs that overlap in
writing one file are therefore modelled only roughly, and no theorem speaks of them.
C111: `one_run` says what a run does to one file, however the run ends (C102, C106); histories are an induction over runs,
and `treated_fixed` makes the third and later times disappear.
C90: without failing calls a run is a search that does not look at the store (`CliOrder.finds`) followed by visits of
files (`CliOrder.visits`), and two neighbouring visits can be swapped (`visit_swap`), also if they write the same file.

## Tests of the theorems

Realistic bugs are put into scratch copies of the model (`/tmp`, outside this repository); everything is rebuilt,
with failing lemmas admitted in the copy to see which properties are lost. `seeded/LOG.jsonl` has one line per
attempt: definition, edit, claim that becomes false, theorems that failed, theorems tightened as a
consequence (C18 and C53 so far).

Not every attempt was rebuilt completely. In many of them, among them all with ids in V and W, the build stops at the
first proof that breaks (`lemmas_failed`), and `theorems_failed` lists the theorems that rest on that lemma. This shows
that their proofs no longer go through, not that each of these theorems is false of the edited model: a proof may also
break only because the edit changes the form of a definition. Theorems further on that the edit also refutes are not
listed (W02 also contradicts C117, which was found by reading, not by a rebuild).
