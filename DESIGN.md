# Formal model of disco-dop in Rocq/Coq — design

## Approach
The source in /repo is Python/Cython/C++. Each modelled function is transcribed
into a total Gallina function (structural recursion, or fuel with a theorem that
the fuel suffices), with a comment citing file and lines. Model files
(`*Model.v`) contain definitions only; `*Proofs.v` contain lemmas; `*Props.v`
contain an independent specification where needed, the property theorems and,
beside each theorem, an `Example` exhibiting a concrete non-trivial case which
meets the hypotheses, and `Print Assumptions`. A property that the code violates
gets the strongest true version plus a theorem `..._refuted` that gives a
concrete counterexample run of the model.

Data representation: Python ints and machine words are `N` (with explicit
`mod 2^64` where C arithmetic wraps), indices `nat`/`Z`, probabilities exact
rationals `Q` or an abstract ordered carrier passed as an argument (floating point
is not modelled), strings are `list` of an abstract token or `string`,
Python object identity is modelled with explicit addresses where it matters
(ParentedTree).

## Plan per property
| id | model | proof method |
|----|-------|--------------|
| C01 | both fanout loops over N, with fuel | induction on bit length; spec = count of i with bit i set and bit i+1 clear |
| C02,C03,C04 | word = N < 2^64, arrays = list N | reduction to N.testbit facts |
| C05,C06 | concat small (mask loop) and fat (position loop) | loop invariant: consumed prefix; spec on sets of positions |
| C07 | cellidx arithmetic on Z, short counter wraps mod 2^16 | nia/induction |
| C08 | encode/decode of args/lengths | induction on yf |
| C09-C11 | Agenda = heap list + map + counter | refinement to finite map; heap modelled as a multiset from which a minimum is taken (heapq trusted) and separately heapq sift functions proved |
| C12 | C++ Agenda | as above |
| C13 | merge with heap of (key, idx, rest) | invariant |
| C14,C15,C34,C43 | direct | induction / lia |
| C16 | rose trees, explicit-stack traversals | nested induction |
| C17,C19 | token-level printer and stack parser | induction with continuation stack |
| C18 | str.replace on lists of chars | induction on length |
| C20,C21,C36 | binarize on rose trees with labels as structured strings | nested induction |
| C22,C23 | splitdiscnodes/mergediscnodes | nested induction |
| C24-C28 | tree transforms | nested induction |
| C29,C37 | lcfrsproductions | induction |
| C30,C32 | counts in Q/N | multiset counting |
| C31 | nodefreq vs explicit enumeration of fragments | nested induction |
| C33 | stream folding | induction |
| C35 | counter-passing decorator | induction with freshness invariant |
| C38 | DiscTree eq/hash | induction, counterexample |
| C39 | heap of nodes, operations | invariant over histories |
| C40 | lazy k-best on acyclic hypergraph | invariant of candidate heaps |
| C41 | CKY as loops over spans | soundness/completeness by induction on span width |
| C42 | greedy partition | induction |
| C44 | Counter as multiset | lia/Q arithmetic |
| C45 | export writer, reader, files as text | positions of nodes, permutation invariants of the agenda, induction on height |
| C46 | punctuation moves | nested induction |
| C47 | forest edit distance | well-founded induction |
| C48,C49 | Grammar.addrules/_indexrules/getruleno and the rule and lexicon text format | refinement of index arrays to a finite map of rules; printer/parser round trip |
| C50 | Levenshtein DP of the leaf-ancestor score | DP table = recursive edit distance, metric laws |
| C51 | unary closure of grammar rules | closure = reachability in the rule graph |
| C52 | markovization part of binarize | labels depend only on the stated window (left factoring refuted) |
| C53 | spans/constituent boundaries of trees | nested induction |
| C54 | LCFRS agenda parser (plcfrs.pyx) | invariant over agenda steps, soundness and optimality of first pop (Knuth); refuted corner case |
| C55-C58 | fragment extraction (_fragments.pyx): tree kernel, extraction of bitsets, counts, indices | invariants of the two-pointer merge; fragments as subgraphs |
| C59,C60 | inside/outside over a chart and coarse-to-fine whitelist | induction over items in order; refuted: order of unary items, lexprob |
| C61 | Vocabulary/Ctrees encoding | injectivity of numbering |
| C62 | parallel fragment extraction: work division | partition of the pairs of trees, any schedule |
| C63 | runexp/parser with multiprocessing | results are independent of the schedule |
| C64 | Double-DOP grammar (flattened fragments with backtransform) | derivations of the encoding biject with fragment derivations |
| C65 | marginalize, sldop_simple, testconstraints, logprobsum/logprobadd over the reals | invariants of the dictionary loops; real analysis of exp/ln |
| C66 | maxconstituentsparse, gettree | table invariant (each derivation counted once per constituent), score invariant of the cells in order of span size, induction on competing trees for the bound and on spans for the result |
| C67 | getpcfgestimates, pcfginsidesx, pcfgoutsidesx (costs as natural numbers; recursive and LCFRS estimates unmodelled) | agenda invariants (Knuth/Dijkstra: popped items are final), soundness by actual contexts, induction on occurrences for the bound |
| C68 | parse_main, populatepos, process_edge, process_lexedge with estimatetype SX / SXlrgaps, less than 64 words, no beam; fallback to gold tags modelled but excluded by hypothesis; signatures of unknown words unmodelled | invariant: every derivation that could improve an item has an open prefix on the agenda whose score is at most the cost of the complete derivation (admissibility); link of derivations over bit vectors to the PCFG trees of C67 |
| C69 | eval.py transform, the part of TreePairResult that calls it, alignsent | the loop as a right-to-left recursion with state; its result as a function of kept words; preorder descriptions by induction on trees |
| C70 | lexicon.py getunknownwordmodel, replaceraretrainwords, replaceraretestwords, simplesmoothlexicon, unknownword4/6/base/ftb, runexp.getposmodel, the test-time lookup in parser.py; str.lower, the tag pattern and the French suffix patterns are parameters | counters and dictionaries as association lists; coverage by cases, three refuted variants as concrete runs |
| C71 | _grammar.pxi Grammar.tobinfile, frombinfile, byte by byte; the 8 bytes of a weight are a parameter (only the weights in the grammar need to survive), the pickled label mapping is a string of bytes, reading past the end is None | readers as parsers on lists of bytes, a frame lemma gives the truncation theorem; an invariant of all reachable grammars: the fan-out of a label is the number of components of each of its rules, 1 for a lexical label |
| C72 | heads.py applyheadrules, headfinder, readheadrules (after the regular expression), markmodifiers; str.upper is a parameter; a node's type is a field of the tree | relational specification of the choice (`picks`, `nomatch`, `conjunct`, `modspec`), one theorem per case of the cascade; induction over the tree for one head / idempotence |
| C73 | treebank.py dependencies, _makedep, deplen, rows of writedependencies, heads.py getheadpos | `headtoken`, `nonhead`, `sub` as specification; makedep characterized arc by arc; closure of a maximal projection under dependents for the yield theorem |
| C74 | treesearch.py _indexfile, _getoffsets, _regex_run_query, extract, the stored index; matcher and UTF-8 decoder are parameters | files as byte lists; `sentence`, `lines` as specification, decomposition of the file around the line of a match |
| C75 | treesearch.py FIFOOrederedDict, the caching in counts/sents/trees; the search itself is a parameter | invariant over the inductive histories of calls; refuted parts as theorems |
| C76 | treesearch.py applyhighlight, charindices | a terminal (`show`) as specification, loop invariant |
| C77 | treetransforms.py optimalbinarize, minimalbinarization, complexity/fanout scores (agenda as an abstract priority queue, see C09-C11; bitsets of terminals as lists) | best-first search invariant: settled partial binarizations are optimal derivations (as in C10/C54), fuel 2^n shown sufficient; `binarizes` as independent specification of all groupings |
| C78 | pcfg.pyx parse (C41) and kbest.pyx lazykbest (C40) as one pipeline (items numbered by an arbitrary injection; no beam, no whitelist) | the chart of C41 meets the conditions of C40 (`chart_ok`); derivations of the chart and derivation trees of the grammar correspond one to one |
| C79 | gen.py gen, chooserule, compose, splitgrammar, yfarray, arraytoyf; weights as rationals, random numbers as an argument | table invariant over the rules; induction on the recursion depth (sound) and on derivations (every derivation generated); `instantiates`, `derives` as independent specification |
| C80 | gen.py read_bitpar_grammar on split lines with parsed numbers; map/zip iterators with their remaining items | induction over the lines |
| C81 | plcfrs.pyx SmallLCFRSChart as seen by kbest.pyx (C54 chart → C40 forest); derivation trees of an LCFRS | the chart satisfies the conditions of C40 (heights: number of words, then rank in the unary order); derivations of the chart and of the grammar correspond one to one (`lread` injective) |
| C82 | SegModel: incrementaltreereader with the three coroutines as step functions on their state (one step per line sent); the parsers of single trees are parameters, instantiated with the models of C19 and C45 for the round trip and the findings. alpinotree (XML) is not modelled | a character automaton for texts of trees; the bracket reader simulates it line by line whatever the division into lines; specification: brackets counted in prefixes, a tree is complete when its first bracket is closed by its last character |
| C83 | RrModel: rrtransform, rrbacktransform, unifymorphfeat as recursive functions on trees with label and source fields | induction on the tree: each realization label is cut at its first slash, each projection label at its first hyphen; the structure of the result is stated with nearest argument, sorted, permutation |
| C84 | RunModel: doparsing, worker, writeresults with workers and comparisons that may raise (C63 has the same loop without exceptions) | the state after any sequence of arrivals as a table over the test set; the first failing arrival stops; multiset measures are invariant under permutation |
| C85 | FuncModel: handlefunctions, handlemorphology, the tags read by BracketCorpusReader._parse, function, functions, morphfeats | string lemmas on find and cut, induction on trees; recover is an independent reader of the wrapped tree |
| C86 | ParseModel: Parser.parse (loop over the stages, partial parses, fallbacks), noparse, probmult; the parser, disambiguation, postprocessing of a stage are arguments | invariant over the stages (charts of this sentence, raw trees over all words); recursion of parse by fuel; C42 for the partition; termination by the length of the segments |
| C87 | RaiseModel: raisediscnodes, with splitdiscnodes and canonicalize of TransformModel | constituents of the split tree (C22), which parts have a head, reordering by tperm; components as separated intervals |
| C88 | OrderModel: canonicallyorderedtree, canonicalizealpino | numbering by induction with the next number as accumulator; strict order by rightmost words determines a tree |
| C89 | XformModel: transform, reversetransform for the transformations that mark, append, insert or remove nodes | relation `marked` between trees that differ in marked labels; each insertion has an inverse, by induction over trees |
| C90 | ThreshModel: MARKOVRE as a backtracking matcher with continuations, markovthreshold, unbinarize (BinarizeModel) | greedy matching = longest prefix for which the rest matches; closed form of the groups; relabelling by a function that keeps artificial labels artificial |
| C91 | CollapseModel: LABELRE.sub, collapselabels and its mapping (dictionary as a list of assignments) | relational specification of a label's names, total and functional; induction over trees; last assignment wins |
| C92 | SldopModel: sldop, treeparsing as transformers of the grammar state (model, mask); the parser and recover are parameters; probabilities as in C65 | invariant of the loop over derivations (its break is never taken); nlargest as in C65; state invariants of the loop over nodes |
| C93 | DopProbModel: dopparseprob with its chart of cells per bitset; exact rationals for logarithms | inductive derivations of a tree, enumerated without duplicates; value of a cell = sum over derivations by induction on the loops over rules; frame conditions on the chart by induction on the tree |
| C94 | FragDerModel: fragmentsinderiv_str, splitfrag on derivation trees | left-most substitution as inductive relation, deterministic; composition of the pre-order list of fragments by induction on the derivation |
| C95 | SwitchModel: switch, incrementrulecount on a record of the rule arrays, counts and models; a stored probability is a pair (is a logarithm, value) | relational specification of a rule's weight in a model; invariant `coherent` kept by switches; two coherent states with the same selection are equal |
| C96 | LookupModel: getruleno, noderuleno with the insertion by operator[] of the C++ maps, on the grammar of C48/C49 | extension order on grammars kept by every lookup; refuted: additions after a lookup |
| C97 | MappingModel: getmapping with its local state (also after a KeyError), getrulemapping on the grammar of C96; regular expressions are functions on labels | specification of a label's coarse labels; invariant of the loops over labels, components and rules; extension = from scratch via the pointwise specification |
| C98 | GetyfModel: treetransforms.getyf on bitsets | reading of a yield function on runs as specification; induction over positions for the three states of the loop |
| C99 | TbfanModel: treebankfanout on trees of words with bitsets, lexicographic max | fan-out as number of runs; unary chains end in a word or in a branching node with the same bitset; max over the branching nodes |
| C100 | TwotermModel: Ctrees.indextrees, twoterminals, pair selection in extractfragments | pairs of different words shared by two trees; membership invariants of the three loops |

## Trusted base
* The Coq 8.16.1 kernel (no OCaml plugins, no kernel check switched off, no axioms
  of our own, no functors or module types).
* Axioms: every theorem except those of C65 and C92 is "Closed under the global context"
  (`Print Assumptions`).  C65 (DisambProps.v) and C92 (SldopProps.v)
  use the real numbers of the standard library; `Print Assumptions` lists for them
  (a subset of)
  `ClassicalDedekindReals.sig_not_dec`, `ClassicalDedekindReals.sig_forall_dec`,
  `FunctionalExtensionality.functional_extensionality_dep`, `Classical_Prop.classic`
  -- all from the standard library.
  (vcheck also lists axioms of Coq.ssr.ssrunder because some library file is
  loaded; no theorem depends on them.)
* Fidelity of the hand transcription: each definition in a `*Model.v` file cites
  the lines it models and the simplifications it makes.

### What is modelled
| files in /repo/discodop | modelled | not modelled |
|---|---|---|
| bit.pyx, bitarray macros | fanout, next/prev set/unset, bit count, set operations, subset, array versions | |
| _grammar.pxi, containers.pyx (Grammar) | rule and lexicon text format, rule tables, index arrays, getruleno, yield-function encoding, switch of models, binary file format (C71), mappings used by coarse-to-fine | |
| plcfrs.pyx | concat, agenda loop, lexical/unary/binary steps, whitelist test, estimates and A* (C67, C68) | beam details, memory layout |
| pcfg.pyx, containers.pyx (charts) | cell indexing, CKY loops (dense and sparse chart), unary closure | multithreading |
| kbest.pyx | lazy k-best, candidates, derivation extraction | |
| disambiguation.pyx | mpp, mpd, shortest, sl-dop, sl-dop-simple, treeparsing, constraints, max constituents parse, dopparseprob | ostag |
| coarsetofine.pyx | whitelist from k-best/posterior, inside/outside sums | |
| _fragments.pyx, fragments.py | kernel, extraction, counts, partition of work | I/O, process pools (schedules are quantified over) |
| containers.pyx (Agenda, Vocabulary, Ctrees) | as data structures | memory management |
| grammar.py | lcfrsproductions, treebankgrammar, DOP reduction, Double-DOP, sumrules | subgraph listing options |
| tree.py, treetransforms.py, treebank.py, punctuation.py | trees, traversals, ParentedTree updates, discbracket/bracket/export formats, binarization, split/merge of discontinuous nodes, unary collapse, punctuation moves, head rules (C72, C73), function tags (C85), treebank transforms (C69, C83, C87-C91) | alpino/tiger XML |
| eval.py, treedist.py | bracketings, F-scores, leaf-ancestor, tree edit distance | report formatting |
| util.py, heapq use, parser.py, runexp.py | merge, ranges, workload, escape/unescape, experiments with schedules | logging, command line |

Not modelled anywhere: floating-point rounding (exact rationals, an abstract
ordered carrier, or reals instead), file I/O beyond file contents as text, memory
allocation, the Cython/C++ compilers, the empty git submodules (gheap, sparsepp,
cpp-btree), heapq's C implementation (its algorithm is modelled).

## Findings
Behaviour of the code that contradicts its documentation or an expected property.
Those marked (P) are proved on the model by a theorem `..._refuted`.

* Max Constituents Parse: a split is only recorded for a score > 0, so when no tag of a
  sentence is worth including a single leaf is returned and words are lost (P C66); the
  score reported is the unnormalized mass of the last label considered.
* Disambiguation: with 'mpd' and 'shortest' on a DOP reduction the same parse tree can
  be listed several times (P C65); marginalize with only one of require/block None
  raises TypeError; 'sl-dop*' collapses equal derivation strings (dict); with ostag,
  'mpd'/'shortest' give empty results; Double-DOP silently drops derivations whose
  fragments cannot be recovered; sldop stops only after n+1 results.
* Double-DOP: identifiers of binarized nodes depend only on labels and the last yield
  function, so discontinuous fragments can share an auxiliary label (P C64); commas
  in labels, words containing "}<", braces or '@' in labels break the encoding.
* Experiments: ZeroDivisionError when no sentence was parsed; `--sentid` input:
  keys after the first get a leading space (P C63), lines without '|' raise.
* Coarse-to-fine: posteriorthreshold uses exp(-p) of a plain probability
  (P C59); inside needs a bottom-up order that unary items need not have (P C59);
  splitprune without markorigin never prunes (P C60).
* Vocabulary: getword of a non-lexical production returns nonsense (P C61); the word
  'Epsilon' collides with frontier nonterminals (P C61).
* Fragments: complete+multiprocessing UnboundLocalError; nofreq+cover AttributeError;
  terminal counts below unary nodes dropped (P C55); extra frontier below unary nodes
  counted (P C57); docstrings with wrong order and ranges.
* Evaluation: EQ_LABEL is not applied to the label of the root (P C69); for a candidate
  with fewer words than the gold tree, the positions of DELETE_ROOT_PRETERMS are those of the
  gold sentence, not of the candidate.
* Estimates: 'for i in range(grammar.nonterminals)' limits the number of rules visited
  per label, so estimates can be inadmissible (P C67); with estimates the parser drops
  items whose score exceeds MAX_LOGPROB = 300, so improbable parses are lost (P C68);
  the scores of tags of signatures (openclass words) omit the estimate, so they leave the
  agenda before items they should not precede; the SX lookup of unary rules subtracts the
  gaps, that of binary rules does not (equal without discontinuity).
* LCFRS parser: a label that is both POS tag and unary LHS may get a worse
  probability (P C54); Fat items unchecked at 128 words.
* Grammar: "non-integral weights left unchanged" is false; duplicate lines keep the
  first weight; convertweight of a fraction returns the numerator only; a last line
  without newline is ignored; '%g' loses precision for counts >= 10^6.
* Transforms: left factoring with horzmarkov > 2 puts siblings outside the span into
  labels (P C52); splitdiscnodes never propagates HEAD; lcfrsproductions skips nodes
  whose first child is a terminal with siblings; canonicalize raises on mixed nodes.
* sumrules yields each new rule with the previous rule's weight (P C33).
* DiscTree.__eq__ returns at the first leaf child (P C38).
* ParentedTree: slice assignment and extend mutate partially before raising; no cycle
  check; prune on the root loses children (P/C39 notes).
* Export: more than 500 phrasal nodes, words like '#5xx' and '%%' break the format
  (P C45). Punctuation: punctlower may lose punctuation (P C46), empty sentence
  IndexError in punctprune.
* Evaluation: treedisteval without roots can exceed its denominator (P C47); NaN scores of
  punctuation-only sentences poison corpus means; summary counts distinct brackets.
* k-best: RankedEdge equality ignores the item so derivations can be dropped (P C40).
* CKY: wrong priorities for unary rules in the dense chart give duplicate edges (P C41);
  leftchildloop checks only the end of the left item (P C41).
* C++ Agenda: stale entry after setifbetter/pop/set (P C12).
* DOP reduction: ewe weights of a label need not sum to 1; bon ignores frequency of
  recurring plain rules; labels containing '@' break it.
* Unknown words: getunknownwordmodel counts signatures of numerals although the training
  words are replaced by '000', so '1,000,000' can get a signature without lexical rule;
  a year in the test set is replaced by '1970' even if the grammar lacks it; known words
  with parentheses are looked up as '#LRB#' and so never found (P C70);
  openclassthreshold=0 raises UnboundLocalError.
- tobinfile/frombinfile: NUL bytes in labels or words and yield functions with an empty
  component ('0,,1', accepted by the text reader) do not survive the cache (P C71); the file
  is written in place and readgrammars only checks that it exists, so a partial file from an
  interrupted run is read on the next start, past the end of the data; the cache drops the
  alternative weights (ob.models = {}, altweightsfile = None), so switch() to another model
  fails on a cached grammar.
- C72: readheadrules upper-cases the whole line, headfinder looks up `headrules.get(tree.label)` as is: rules for labels with lower case letters (FTB `VPpart`, `Srel`, `AdP`; all of Alpino's `np`, `smain`, ...) are never used and the default (first non-punctuation child) applies. Lines with a label and a direction only (`len(line.split()) > 2`) are silently skipped. LIKE copies the rules so far; a label without rules so far is a KeyError.
- C73: deplen compares with 'ROOT', dependencies writes 'root': the distance of the root to 0 is counted (a one-word sentence has length 1), while the count leaves out one dependency. The docstring of dependencies gives the tuple as (headidx, label, depidx); it is (depidx, label, headidx). A root that is a preterminal raises TypeError; a node without a head StopIteration.
- C74: _indexfile skips lines that are white space, but the text of a sentence ends at the next index: blank lines with other white space (also CRLF) become part of the preceding sentence. An empty match at the end of the file is an IndexError (or a line number that does not exist in the indices mode); an empty file cannot be mmapped. `treesearchline.idx` is reused for any equally many files in that directory that are older. Patterns work on bytes, so `.` can split a character: UnicodeDecodeError. `max(result, maxresults or 0)` should be min (unused).
- C75: RegexSearcher.sents assigns to start and end in the loop over the results, so they are cached under the wrong key (Tgrep sents clobbers `end`, which its lambdas capture). A search without maximum followed by one with a maximum is a TypeError (`None < int`). The maximum is per fragment on the first call and for the total on a cached one.
- C77: the third component of the score (sum of complexities) is only a tie-break and is not minimized over all optimal trees. With `h` given (as for `optimalhead`) the tree is not put in canonical order, and a continuous constituent is factored as is: the result can have discontinuous nodes that another order avoids (C77_order_refuted). `v > 1`: the root gets the label `ROOT^<>`, and artificial labels of discontinuous nodes have the parent annotation twice (the label of the node already has it). Without headdriven `h` shortens only the labels of continuous nodes. The score function must give tuples: with `fun=fanout` or `complexity` the search raises TypeError.
- C78: the condition of C40_kbest_complete (an edge, i.e. rule and split point, belongs to one item) fails for ordinary PCFG charts: with the single rule X -> X X and five words, 10 of the 14 derivations are found (C78_complete_refuted), because the set of explored ranked edges, shared by all items, records rule, split point and ranks but not the item.
- C79: if a label has rules other than lexical ones, its lexical rules are never used (C79_lexical_refuted); the yield function of a unary rule is ignored, so a unary rule that merges components gives a yield with too many components (C79_unary_refuted). Lexical rules are not counted in prodcounts (the discount applies equally to all of them). If the weights sum to 0 chooserule raises ValueError.
- C80: `weights = map(float, weights)` is consumed by the integrality test and `tags = zip(tags, weights)` by the loop that counts, so that `grammar.extend(...)` adds nothing: no lexical rule is ever read (C80_lexicon_refuted), and gen() then fails with a KeyError. With a non-integral weight, ntfd is updated with misaligned weights (not used in that case). main() falls back to read_bitpar_grammar after read_lcfrs_grammar has consumed the first line(s) of the same file object.
- C81: as in C78 the condition for completeness fails already for X -> X X: with five words 12 of the 14 derivations are found (C81_complete_refuted).
- C82: text before the first tree on a line (`1: (S (A b))`, or `(DT the) (S …)`) becomes part of the text of that tree, so that reading fails with ValueError: `start` is only moved to the opening bracket when another tree is pending (treebank.py:1110-1113). After a tree the same text is accepted.
- C82: the `#BOT`…`#EOT` table of an export file is passed to exporttree and yielded as a tree ROOT without children (treebank.py:1199-1206).
- C82: NEWLB matches the empty string, so that the test that should ignore a left bracket not preceded by whitespace (treebank.py:1101-1103) never holds.
- C83: `childfuncsr.insert(0, prevfunc)` (treebanktransforms.py:1465) inserts prevfunc instead of nextfunc: with adjright the context of an adjunct is the last argument of the constituent, even when it is to the left of the adjunct.
- C83: with the default values `ignorefunctions=None`, `ignorecategories=None` rrtransform raises TypeError for every constituent with a child that has a function other than the adjunction label.
- C83: a slash in a part-of-speech tag or its morphology makes rrbacktransform raise ValueError; a hyphen in a phrase label loses the rest of the label.
- C84: an exception in a worker (or in the comparison of one pair of trees) discards the results of all sentences parsed so far: files are written after the last sentence only.
- C85 (P): a function tag that ends in a digit (obj1, obj2 of Alpino) is read back from bracket notation without the digit (rstrip at treebank.py:239).
- C85 (P): for a Penn label NP-SBJ-1 the tag field is 'SBJ-', and functions() returns ['SBJ', '']: the empty tag is counted by the function-tag score.
- C86 (P): probmult (parser.py:823) adds the *probability* of a later part to the number of subtrees instead of its number of subtrees (prob1[0] + prob2[1]); C86_subtrees_refuted.
- C86 (P): a stage that is skipped because its pruning stage has no parse keeps the variable chart of whichever stage ran before, and reports trees from it; C86_stale_refuted.
- C86 (P): a fallback postprocesses the raw tree of an earlier stage with the settings of the current stage (e.g. labels VP*0 of a split stage are not merged), so it can differ from the tree that was reported; C86_fallback_refuted.
- C86 (P): partial parses are reported with noparse=False by the stage that makes them (and counted as covered); re-parsing a segment can recurse without end when the segment again fails with an item over all its words, C86_loops_refuted; termination is proved when re-parsing with that label succeeds.
- C86 (M): a start label of a segment that is not in the grammar of an earlier stage raises KeyError, which is not caught; the fallback tree is not checked for missing words (C86_words needs that postprocessing keeps words for it).
- C87 (P): raisediscnodes dissolves all components of a node whose head child is itself discontinuous (splitdiscnodes never marks parts as heads, treetransforms.py:512-515 looks at the children after they were removed), so the node is lost: C87_lost_refuted; a head that is kept as a part loses its head mark.
- C87 (P): a node that has a label ending in * in the input is dissolved or renamed although it is not a part: C87_star_refuted; for a preterminal with such a label a word is asked for its type (AttributeError; not modelled).
- C88 (P): canonicallyorderedtree loses words that are not in the tree (newsent has None at the end, treetransforms.py:609); C88_reordered says which.
- C89 (P): transform's APPEND-MORPH calls tree.subtree, which does not exist (treebanktransforms.py:156): AttributeError for every tree (C89_appendmorph_refuted). Undoing MORPH-NODE exchanges tag and morphology of every word: the forward step puts the node below the tag (159-164), the reverse step (1310-1316) assumes it is above (C89_morphnode, C89_morphnode_refuted); the test compares only brackets of constituents. NP-PP with a root labelled PP and TAGPA with a root that is a preterminal raise AttributeError. Undoing FUNC-NODE loses lemma, morphology and other fields of the node. SBAR and NEST insert children that still have a parent into a ParentedTree (ValueError; not modelled).
- C90 (P): the vertical order of markovthreshold has no effect (C90_vertical_refuted, C90_parent_refuted): in MARKOVRE (treetransforms.py:29) group 3 is greedy, takes everything up to the last '>' and so includes the parent; group 4 never takes part. 'NP|<DT,NN>^<S>' with h=1, v=1 becomes 'NP|<DT,>', with h=2 'NP|<DT,NN>^<S,>'. A rare label with no more than h siblings is renamed too (a comma is added), without being merged with another.
- C91 (P): collapselabels drops the number of fan-out marks, since digits are not in any mapping: VP_2 and VP_3 both become P_ (C91_fanout_refuted), although labels of the coarse grammar must have one fan-out. The labels VP* of splitdiscnodes have no coarse label, so the assertion at treebanktransforms.py:1379 fails whenever a stage has both `split` and `collapse` and the treebank has a discontinuous phrase (C91_split_refuted; runexp.py:335-346). If the label of the root occurs below the root, the mapping is wrong for the root (C91_root_refuted). The fine labels 'PRT|ADVP' and '--' in MAPPINGS can never match, as they contain separators.
- C92 (P): after a failed second parse sldop returns without selecting the previous model (disambiguation.pyx:458), so the grammar keeps the 'shortest' weights (C92_model_restored_refuted; Parser.parse selects a model before each stage, so other callers of marginalize are affected). treeparsing(.., maskrules=True) returns for an unknown label with all remaining rules blocked (C92_mask_restored_refuted). Its `except KeyError` around getruleno (824) is dead: getruleno never raises it (C96), so trees with unknown rules are parsed with rule 0 as active rule, and an unknown label that is a child of a node looked up before is taken for Epsilon (C92_unknown_rejected_refuted). An earlier version of the model took the KeyError for real. Outside the model: abs(int(s / log(0.5))) truncates, so for 25 or more steps the number of steps is usually one too low in floating point.
- C93 (P): the chart of dopparseprob has one cell per set of words, so for a tree with the same label twice in a unary chain, such as (A (A (B 0))), derivations of the lower node are counted as derivations of the upper one (C93_chain_refuted: 3/4 instead of 1/4).
- C94 (P): splitfrag writes a substitution site as min:max of its words (disambiguation.pyx:769), so the site of a discontinuous constituent also covers the words of its gap (C94_words_refuted); the Double-DOP variant uses yieldranges.
- C95 (P): incrementrulecount asks the caller to re-normalize, but switch() returns at once for the model in use (_grammar.pxi:712), so switch('default') leaves the old weights (C95_renormalize_refuted); Parser.augmentgrammar gets new weights only because addrules resets currentmodel. For the same reason a grammar file in which a rule occurs twice keeps the wrong initial weights (C71) when 'default' is selected.
- C96 (P): getruleno and noderuleno use operator[] of C++ maps (_grammar.pxi:954-973), which inserts 0 for a missing key: an unknown production is reported as rule 0 and an unknown label becomes Epsilon, permanently; a later addrules with that rule adds its weight to rule 0 (C96_addrules_refuted) or fails (C96_newlabel_refuted). Same in getrulemapping (945). Callers that catch KeyError (disambiguation.pyx:824) never see it.
- C97 (P): getmapping appends to revmap without clearing it (_grammar.pxi:862), so a second call duplicates it (C97_again_refuted); a KeyError leaves the mapping empty since it was swapped away (C97_failure_refuted); `seen` is only updated in the markorigin branch, so the logged message lists all coarse labels as unmapped (C97_message_refuted); getrulemapping files a rule without coarse rule under rule 0 (C97_unknown_rule_refuted).
- C98 (P): getyf allows right=None but then evaluates right.bitset at the first unset bit (treetransforms.py:974): AttributeError for every node that is not an initial segment of the sentence (C98_unary_refuted); factorconstituent(threshold=0, markyf=True) does that for unary nodes (403).
- C100 (P): with twoterms the slice of trees2 includes end2 (_fragments.pyx:185, `m > end2`), while the other mode uses range(start2, end2) (C100_slice_refuted); a word that occurs twice in one tree counts as two shared words although the other tree has it once (C100_two_words_refuted), against the docstring of twoterminals.
