{"id": "C01", "title": "fanout counts contiguous components", "statement": "discodop.bit.fanout(n) and the pure-Python fallback bitfanout(n) return the number of maximal runs of consecutive 1-bits of n (i.e. the number of contiguous components), so both code paths (machine word, big int) agree.", "quantifier": "every non-negative integer n, of any number of bits", "why_tests_cant": "the two code paths switch on the size of the argument and loop on data; only an inductive argument covers all bit patterns", "anchors": ["discodop/bit.pyx:fanout", "discodop/tree.py:bitfanout"]}
{"id": "C02", "title": "single-word bit scans", "statement": "nextset(v,pos) is the least set bit index >= pos or -1 when there is none; nextunset(v,pos) the least unset one or 64; bitlength(v) is one more than the highest set bit (0 for 0); bitcount(v) is the number of set bits.", "quantifier": "every 64-bit word and every position below 64", "why_tests_cant": "2^64 words times 64 positions", "anchors": ["discodop/bit.pxd:nextset", "discodop/bit.pxd:nextunset", "discodop/bit.pxd:bitlength", "discodop/bit.pyx:bitcount"]}
{"id": "C03", "title": "multi-word bitsets behave as sets", "statement": "On arrays of 64-bit words: anextset / anextunset find the least (un)set index >= pos or report none (-1, resp. the total number of bits); abitcount is the cardinality; abitlength is highest element + 1; setunion/setintersect (and in-place versions) and subset implement the set operations; iteratesetbits called repeatedly enumerates exactly the members, each once, in increasing order, then reports exhaustion.", "quantifier": "every number of words, every contents, every start position", "why_tests_cant": "carry between words and the loop over words make the space unbounded", "anchors": ["discodop/bit.pxd:anextset", "discodop/bit.pxd:anextunset", "discodop/bit.pxd:iteratesetbits", "discodop/bit.pxd:subset", "discodop/bit.pxd:setunion", "discodop/bit.pxd:abitcount", "discodop/bit.pxd:abitlength"]}
{"id": "C04", "title": "bit scans on Python integers", "statement": "pyintnextset(a,pos) is the least set bit >= pos or -1; pyintbitcount(a) is the number of 1-bits; both terminate.", "quantifier": "every non-negative Python integer a and position pos", "why_tests_cant": "arguments are unbounded integers", "anchors": ["discodop/bit.pyx:pyintnextset", "discodop/bit.pyx:pyintbitcount"]}
{"id": "C05", "title": "LCFRS rule application decides the yield function (machine-word items)", "statement": "For a binary rule with an encoded yield function, concat(rule, left, right) is true exactly when reading the maximal components of left and right in the order the yield function prescribes spells out, left to right, the maximal components of the union: adjacent entries of one argument meet without a gap, arguments are separated by a gap and are in order, nothing is used twice and nothing is left over. Needed hypothesis: the fan-outs of the items match the yield function (shown necessary by a counterexample: the single-word test accepts items with a component below the first one).", "quantifier": "every pair of word-sized items, every yield function that starts with the left daughter", "why_tests_cant": "the decision is a loop over bit masks driven by the data; the space of vectors and yield functions is unbounded", "anchors": ["discodop/plcfrs.pyx:concat", "discodop/_grammar.pxi:_convertrules"]}
{"id": "C06", "title": "LCFRS rule application on long sentences", "statement": "The multi-word version of concat decides the same relation as C05, and without the fan-out hypothesis, for vectors that leave the last bit position unused; consequently single-word and multi-word parsers agree on all sentences they both accept.", "quantifier": "every pair of items over any number of words and every yield function", "why_tests_cant": "as C05; also agreement of two implementations over all inputs", "anchors": ["discodop/plcfrs.pyx:concat"]}
{"id": "C07", "title": "Dense chart cell numbering is a bijection", "statement": "cellidx(start,end,n,nts) maps the spans 0<=start<end<=n one-to-one onto the multiples of nts below nts*n*(n+1)/2, so cells never overlap, and cellstart/cellend recover start and end; the latter only while the running index fits in the 16-bit counter the code uses (counterexample for longer sentences).", "quantifier": "every sentence length, number of nonterminals and span", "why_tests_cant": "arithmetic over unbounded parameters, 16-bit wrap-around included", "anchors": ["discodop/containers.pxd:cellidx", "discodop/containers.pxd:cellstart", "discodop/containers.pxd:cellend", "discodop/containers.pxd:compactcellidx"]}
{"id": "C08", "title": "Yield functions survive the encoding in two machine words", "statement": "Encoding a yield function into the args/lengths bit fields when reading a grammar and decoding it again when printing (yfstr / rule strings) gives back the same yield function.", "quantifier": "every yield function with non-empty components, first variable 0, at most 32 variables", "why_tests_cant": "all yield functions, not a sample of them", "anchors": ["discodop/_grammar.pxi:_convertrules", "discodop/_grammar.pxi:yfstr", "discodop/grammar.py:printrule"]}
{"id": "C09", "title": "The Python agenda is a priority queue with update", "statement": "After any history of setitem / getitem / delitem / contains / popitem on discodop.util.Agenda starting from any initial contents, popitem returns a key with the least current value and that value, removes exactly this key, and every other key keeps its latest value; getitem and membership always reflect the latest assignment.", "quantifier": "every finite history of operations, every priority type with a total order", "why_tests_cant": "histories are unbounded and updates leave invalidated entries in the heap", "anchors": ["discodop/util.py:Agenda", "discodop/util.py:Entry"]}
{"id": "C10", "title": "Agenda.peekitem does not change the queue", "statement": "peekitem() returns what popitem() would return, and the queue then behaves as if peekitem had not been called. True when the heap top is not an invalidated entry; false otherwise (counterexample: update the minimum, then peek: the entry is lost for good).", "quantifier": "every reachable agenda state", "why_tests_cant": "depends on the hidden invalidated entries left by the history", "anchors": ["discodop/util.py:Agenda.peekitem"]}
{"id": "C11", "title": "len(agenda) is the number of keys", "statement": "len(agenda) is the number of distinct keys currently stored, after any history not containing clear(); after clear() it is wrong (counterexample).", "quantifier": "every finite history of operations", "why_tests_cant": "histories are unbounded", "anchors": ["discodop/util.py:Agenda.__len__", "discodop/util.py:Agenda.clear"]}
{"id": "C12", "title": "The compiled agenda pops each item at its best priority", "statement": "For the C++ agenda used by the LCFRS parser: after any history of insertions and improving updates (setifbetter), pop returns the live item with the lowest current priority, each inserted key is popped once, and popped priorities are non-decreasing as long as no inserted priority is lower than an already popped one. An update that worsens a priority breaks this (counterexample).", "quantifier": "every history of setitem/setifbetter/pop", "why_tests_cant": "histories are unbounded and stale heap entries persist", "anchors": ["discodop/_containers.h:Agenda"]}
{"id": "C13", "title": "util.merge merges sorted iterables", "statement": "merge(*iterables, key) yields a sorted permutation of all elements of the (sorted) inputs, with ties in order of the iterables, for any number of iterables; and consumes nothing else.", "quantifier": "every number of input lists, all lengths, any total preorder key", "why_tests_cant": "unbounded inputs", "anchors": ["discodop/util.py:merge"]}
{"id": "C14", "title": "slice_bounds follows Python slicing", "statement": "slice_bounds(seq, slice) returns 0 <= start <= stop <= len(seq) bounds such that iterating range(start, stop) selects what Python's own slice selects.", "quantifier": "all lengths and all (possibly negative, missing or out of range) slice bounds", "why_tests_cant": "integers are unbounded", "anchors": ["discodop/util.py:slice_bounds"]}
{"id": "C15", "title": "OrderedSet is a set that remembers insertion order", "statement": "OrderedSet(iterable) contains exactly the elements given, len counts distinct elements, iteration follows first insertion, and &, == agree with set semantics under the assumption of duplicate-free input (for inputs with duplicates iteration yields duplicates: counterexample).", "quantifier": "every finite sequence of elements", "why_tests_cant": "unbounded input sequences", "anchors": ["discodop/util.py:OrderedSet"]}
{"id": "C16", "title": "Tree traversals", "statement": "subtrees() visits every node exactly once in pre-order, postorder() every node exactly once in post-order, leaves()/pos() list the terminals left to right, treepositions(order) lists each position once in the stated order, leaf_treeposition(i) points at the i-th leaf, treeposition_spanning_leaves(s,e) dominates exactly-or-more leaves s..e and is the lowest such position.", "quantifier": "every finite tree", "why_tests_cant": "trees are unbounded in size and shape; the traversals are explicit-stack loops", "anchors": ["discodop/tree.py:Tree.subtrees", "discodop/tree.py:Tree.postorder", "discodop/tree.py:Tree.leaves", "discodop/tree.py:Tree.treepositions", "discodop/tree.py:Tree.leaf_treeposition"]}
{"id": "C17", "title": "Parsing a printed tree gives back the tree", "statement": "Tree.parse(str(t)) == t for trees whose labels and leaves contain no brackets or whitespace and are non-empty.", "quantifier": "every finite tree over admissible labels and leaves", "why_tests_cant": "all trees", "anchors": ["discodop/tree.py:Tree.parse", "discodop/tree.py:Tree._pprint_flat"]}
{"id": "C18", "title": "Escaping of words in bracket files is lossless", "statement": "unescape(escape(w)) == w for every word except the reserved strings; the result contains no bracket; the exceptions (words containing the replacement strings, the empty word and frontier marker) are exactly characterised.", "quantifier": "all strings", "why_tests_cant": "all strings", "anchors": ["discodop/tree.py:escape", "discodop/tree.py:unescape", "discodop/tree.py:ptbescape", "discodop/tree.py:ptbunescape"]}
{"id": "C19", "title": "Discontinuous bracket notation round-trips", "statement": "discbrackettree(writediscbrackettree(t, sent)) returns a tree and sentence equal to t and sent.", "quantifier": "every tree with integer leaves whose indices are a permutation of the sentence positions; words over the admissible alphabet", "why_tests_cant": "all trees", "anchors": ["discodop/tree.py:discbrackettree", "discodop/tree.py:writediscbrackettree", "discodop/tree.py:brackettree", "discodop/tree.py:writebrackettree"]}
{"id": "C20", "title": "Binarization keeps the yield and is binary", "statement": "binarize(tree, ...) with any factor (left/right), horizontal and vertical markovization, with or without extra unary rules, direction markers, head positions, labels functions, never changes the terminals or their order and yields nodes with at most two children.", "quantifier": "every tree and every option combination modelled", "why_tests_cant": "trees and options unbounded", "anchors": ["discodop/treetransforms.py:binarize"]}
{"id": "C21", "title": "unbinarize inverts binarize", "statement": "unbinarize(binarize(t, options)) == t for every tree whose labels do not contain the markers and whose root survives.", "quantifier": "every tree and every option combination modelled", "why_tests_cant": "trees and options unbounded", "anchors": ["discodop/treetransforms.py:binarize", "discodop/treetransforms.py:unbinarize"]}
{"id": "C22", "title": "splitdiscnodes yields a continuous tree", "statement": "splitdiscnodes(t) has no discontinuous constituents, keeps exactly the terminals, and labels the parts of a split node label*, one per contiguous component.", "quantifier": "every tree with distinct integer leaves", "why_tests_cant": "unbounded trees", "anchors": ["discodop/treetransforms.py:splitdiscnodes"]}
{"id": "C23", "title": "mergediscnodes inverts splitdiscnodes", "statement": "mergediscnodes(splitdiscnodes(t, markorigin=True)) == t for canonically ordered trees whose labels contain no '*'.", "quantifier": "every tree with distinct integer leaves satisfying the stated condition", "why_tests_cant": "unbounded trees", "anchors": ["discodop/treetransforms.py:mergediscnodes", "discodop/treetransforms.py:splitdiscnodes"]}
{"id": "C24", "title": "collapseunary can be undone", "statement": "unbinarize (with unary char) restores a tree from collapseunary; collapseunary leaves no unary productions except those excluded, and keeps the terminals.", "quantifier": "every finite tree", "why_tests_cant": "unbounded trees", "anchors": ["discodop/treetransforms.py:collapseunary", "discodop/treetransforms.py:unbinarize"]}
{"id": "C25", "title": "introducepreterminals", "statement": "After introducepreterminals every terminal is the only child of its parent (a preterminal), the yield is unchanged and nodes with children that already are so are untouched; it is idempotent.", "quantifier": "every finite tree", "why_tests_cant": "unbounded trees", "anchors": ["discodop/treetransforms.py:introducepreterminals"]}
{"id": "C26", "title": "removeterminals renumbers consistently", "statement": "removeterminals(tree, sent, func) removes exactly the terminals selected by func, keeps the others in order, prunes emptied constituents, and renumbers the indices to 0..k-1 so each remaining index still denotes the same word.", "quantifier": "every tree, sentence and predicate", "why_tests_cant": "unbounded inputs", "anchors": ["discodop/treetransforms.py:removeterminals", "discodop/treetransforms.py:removeemptynodes"]}
{"id": "C27", "title": "canonicalize gives a normal form", "statement": "canonicalize(t) sorts children recursively by their leaves: the result is equal up to reordering of children, idempotent, and two trees equal up to child order with distinct leaves get the same canonical form.", "quantifier": "every finite tree with distinct integer leaves", "why_tests_cant": "unbounded trees", "anchors": ["discodop/treetransforms.py:canonicalize"]}
{"id": "C28", "title": "Fan-out markers can be removed", "statement": "addfanoutmarkers appends _k exactly to constituents with fan-out k>1; removefanoutmarkers(addfanoutmarkers(t)) == t if no label of t contains an underscore; the condition is needed (counterexample).", "quantifier": "every finite tree", "why_tests_cant": "unbounded trees and labels", "anchors": ["discodop/treetransforms.py:addfanoutmarkers", "discodop/treetransforms.py:removefanoutmarkers"]}
{"id": "C29", "title": "Extracted productions describe the tree", "statement": "lcfrsproductions(tree, sent) returns one production per constituent; each yield function has one component per contiguous component of the constituent, mentions each daughter once per component of that daughter, in order, and combining the daughters' spans by it gives exactly the node's span.", "quantifier": "every tree with distinct integer leaves", "why_tests_cant": "unbounded trees", "anchors": ["discodop/grammar.py:lcfrsproductions"]}
{"id": "C30", "title": "Treebank grammar weights are relative frequencies", "statement": "The weights of treebankgrammar(trees, sents) are counts over left-hand-side counts, and they sum to exactly 1 for each left-hand side.", "quantifier": "every list of trees", "why_tests_cant": "unbounded treebank", "anchors": ["discodop/grammar.py:treebankgrammar"]}
{"id": "C31", "title": "Number of DOP fragments", "statement": "nodefreq computes for every node the number of fragments rooted at that node: prod over children (1+count), 1 for preterminals; equals the number of subtrees obtained by independently cutting or expanding each non-terminal child.", "quantifier": "every finite tree", "why_tests_cant": "unbounded trees", "anchors": ["discodop/grammar.py:nodefreq"]}
{"id": "C32", "title": "The DOP reduction is a correct encoding of the fragment grammar", "statement": "For each node, the weights the (rfe) Goodman reduction gives to its addressed rules sum to one, and each fragment of the tree is the product of the weights of its reduction derivations with probability 1/total per label.", "quantifier": "every finite treebank", "why_tests_cant": "unbounded trees", "anchors": ["discodop/grammar.py:dopreduction"]}
{"id": "C33", "title": "Merging sorted grammar files sums weights", "statement": "Merging sorted rule / lexicon / fragment files with sumlex / sumfrags / sumrules outputs each distinct line once with the summed weight. sumrules does not (counterexample).", "quantifier": "every sorted stream of entries", "why_tests_cant": "unbounded streams", "anchors": ["discodop/grammar.py:sumrules", "discodop/grammar.py:sumlex", "discodop/grammar.py:sumfrags"]}
{"id": "C34", "title": "UniqueIDs hands out distinct identifiers", "statement": "A UniqueIDs object maps equal keys to the same id and distinct keys to distinct ids under any history, and ids drawn with next() are never reused.", "quantifier": "every history of lookups and next() calls", "why_tests_cant": "unbounded histories", "anchors": ["discodop/grammar.py:UniqueIDs"]}
{"id": "C35", "title": "Node addresses in the DOP reduction are unique", "statement": "TreeDecorator.decorate gives each internal node of each tree an address that no other node of the same or another tree decorated by the same object has, and leaves the tree otherwise unchanged; equal subtrees are shared by memoization only when memoize is on.", "quantifier": "every sequence of trees", "why_tests_cant": "unbounded histories and trees", "anchors": ["discodop/grammar.py:TreeDecorator"]}
{"id": "C36", "title": "factorconstituent", "statement": "factorconstituent(node, ...) turns a node with n children into a right- or left-branching binary structure with the same children in the same order.", "quantifier": "every node", "why_tests_cant": "unbounded number of children", "anchors": ["discodop/treetransforms.py:factorconstituent"]}
{"id": "C37", "title": "ranges / rangeheads / contsets", "statement": "ranges(s) partitions a sequence of increasing integers into maximal consecutive runs in order; rangeheads(s) gives the first of each; contsets partitions a sorted list of children into maximal contiguous blocks.", "quantifier": "every strictly increasing finite sequence", "why_tests_cant": "unbounded sequences", "anchors": ["discodop/tree.py:ranges", "discodop/grammar.py:ranges", "discodop/grammar.py:rangeheads", "discodop/treetransforms.py:contsets"]}
{"id": "C38", "title": "Equality of DiscTree is an equivalence compatible with hash", "statement": "Equal DiscTrees have equal hashes and the same words at all corresponding terminals. False: equality only compares the first terminal of a node (counterexample); holds when each node has at most one terminal child.", "quantifier": "all pairs of trees and sentences", "why_tests_cant": "unbounded trees", "anchors": ["discodop/tree.py:DiscTree.__eq__", "discodop/tree.py:DiscTree.__hash__"]}
{"id": "C39", "title": "Parent pointers stay consistent", "statement": "After any history of mutations on ParentedTree (append, insert, extend, pop, remove, setitem, delitem, slices, detach, prune, spliceabove, splicebelow), p is the parent of c exactly when c is among p's children, and no node occurs under two parents; a failing operation leaves the tree unchanged (false for slice assignment with a repeated child: counterexample).", "quantifier": "every history of operations on every heap of nodes", "why_tests_cant": "unbounded histories", "anchors": ["discodop/tree.py:ParentedTree"]}
{"id": "C40", "title": "k-best derivations", "statement": "For k >= 1, lazykbest returns at most k distinct derivations of the chart's goal item with their probabilities, in order of probability, starting with a most probable one; and when rule and split point identify an edge of the chart, it returns the k most probable ones: a derivation is left out only if k others that are at least as probable are returned.  The conditions (rule and split point identify an edge, at most 200 levels, lexical edges are the best of their item) are necessary.", "quantifier": "every acyclic chart and every k", "why_tests_cant": "unbounded charts and numbers of derivations", "anchors": ["discodop/kbest.pyx:lazykthbest", "discodop/kbest.pyx:lazykbest"]}
{"id": "C41", "title": "CKY parsing is sound, complete and Viterbi-optimal", "statement": "pcfg.parse without whitelist, beam and unknown word model terminates, and fails only if some word has no tag; afterwards the chart contains an edge for exactly the rule instances that derive spans of the sentence, and the stored Viterbi probability of an item is that of its best derivation.  With a sparse chart no edge occurs twice (with a dense chart unary edges can), and with a whitelist items can be added that have no derivation.", "quantifier": "every binarized PCFG, every sentence, every order in which unary rules are tried", "why_tests_cant": "unbounded grammars and sentences; unary cycles", "anchors": ["discodop/pcfg.pyx:parse_grammarloop", "discodop/pcfg.pyx:populatepos", "discodop/pcfg.pyx:applyunaryrules", "discodop/pcfg.pyx:parse_leftchildloop"]}
{"id": "C42", "title": "Partial parses cover the sentence", "statement": "partitionincompletechart returns a left-to-right sequence of adjacent chart items covering all of the sentence without overlap.", "quantifier": "every chart and sentence length", "why_tests_cant": "unbounded charts", "anchors": ["discodop/kbest.pyx:partitionincompletechart"]}
{"id": "C43", "title": "Cartesian product", "statement": "cartpi(seq) enumerates each combination with one element from each list exactly once, in lexicographic order.", "quantifier": "every finite list of lists", "why_tests_cant": "unbounded", "anchors": ["discodop/grammar.py:cartpi"]}
{"id": "C44", "title": "Evaluation measures", "statement": "precision, recall and F are the multiset-intersection ratios, lie between 0 and 1, swapping the arguments exchanges precision and recall, and both are 1 exactly for equal multisets of bracketings.", "quantifier": "every pair of bracketing multisets", "why_tests_cant": "unbounded multisets", "anchors": ["discodop/eval.py:precision", "discodop/eval.py:recall", "discodop/eval.py:f_measure", "discodop/eval.py:bracketings"]}
{"id": "C45", "title": "Export format round-trips", "statement": "Reading a file in export format that consists of sentences written by writetree (with distinct identifiers) gives for each sentence its identifier, the words, the comment, and the same (discontinuous) tree under ROOT with siblings in the order of their words; missing words are read as '...', missing fields as '--', and the lemma of a phrase is lost. Needed: labels, words and fields without white space and '%%', no parentheses in labels, at most 500 phrases, no word of the form #500..#999; counterexamples for the last three; a repeated identifier is an error.", "quantifier": "every list of trees and sentences of that form", "why_tests_cant": "unbounded trees and corpora", "anchors": ["discodop/treebank.py:writeexporttree", "discodop/treebank.py:exporttree", "discodop/treebank.py:exportsplit", "discodop/treebank.py:NegraCorpusReader"]}
{"id": "C46", "title": "Moving punctuation keeps the words", "statement": "punctroot, punctraise, balancedpunctraise and applypunct('move'/'moveall') keep the multiset of tagged words, and the tree without the movable preterminals (and without the nodes empty as a consequence) stays the same (up to the order of siblings for applypunct); punctroot leaves all punctuation under the root; punctraise puts a single mark beside a constituent that begins with the next word; punctprune removes exactly the quotes and periods at both ends, punctremove exactly the punctuation (or the preterminals under the root), renumbering the rest. punctlower can lose a word (counterexample).", "quantifier": "every tree and sentence", "why_tests_cant": "unbounded trees", "anchors": ["discodop/punctuation.py"]}
{"id": "C47", "title": "Tree edit distance", "statement": "treedist(a,b) is the minimal number of node insertions, deletions and relabelings between the trees with siblings in order of their first terminal and each preterminal merged with its terminal; it is 0 exactly for trees equal up to the order of siblings, symmetric, satisfies the triangle inequality, and agrees with the count reported by newtreedist, whose edit script has as many operations; treedisteval's distance never exceeds its denominator when roots count, or when the roots have the same label.", "quantifier": "every pair of (discontinuous) trees in which each terminal is the only child of its parent", "why_tests_cant": "minimum over unboundedly many scripts", "anchors": ["discodop/treedist.py:treedist", "discodop/treedist.py:newtreedist"]}
{"id": "C48", "title": "Rules are found by label", "statement": "For every label, going through a rule array from the position given by its index until the label differs visits exactly the rules with that label, in order, and never reads past the sentinel; the arrays by left-hand side, unary daughter, left and right daughter are in the required order after any history of addrules calls.", "quantifier": "every grammar, every history of addrules calls, every label", "why_tests_cant": "unbounded grammars and histories; depends on the contract of std::sort and inplace_merge only", "anchors": ["discodop/_grammar.pxi:Grammar._indexrules", "discodop/_grammar.pxi:Grammar.addrules"]}
{"id": "C49", "title": "Labels and rule numbers are bijective and stable", "statement": "A grammar's label numbering is a bijection with Epsilon 0 and the start symbol 1, and labels keep their number when rules are added; rules are numbered from 0 without gaps, getruleno finds a rule's number from its labels and yield function and nothing else.", "quantifier": "every grammar and history of addrules calls", "why_tests_cant": "unbounded histories", "anchors": ["discodop/_grammar.pxi:Grammar.getruleno", "discodop/_grammar.pxi:Grammar._convertrules"]}
{"id": "C50", "title": "Edit distance and leaf-ancestor score", "statement": "editdistance is the least number of insertions, deletions and replacements between two sequences (so a metric); the leaf-ancestor path of a word lists the labels of the constituents above it with marks for their boundaries; the leaf-ancestor score lies between 0 and 1 and is 1 exactly if all paths are equal (which does not imply equal bracketings, although the code asserts it).", "quantifier": "all sequences and all pairs of trees", "why_tests_cant": "unbounded sequences and trees", "anchors": ["discodop/eval.py:editdistance", "discodop/eval.py:pathscore", "discodop/eval.py:leafancestorpaths", "discodop/eval.py:leafancestor"]}
{"id": "C51", "title": "Equivalence classes of labels and words for evaluation", "statement": "The EQ_LABEL/EQ_WORD pairs of a parameter file are closed to equivalence classes: two labels are mapped to the same representative exactly if a chain of given pairs connects them.", "quantifier": "every list of pairs, and every iteration order of sets", "why_tests_cant": "unbounded lists of pairs and nondeterministic set order", "anchors": ["discodop/eval.py:transitiveclosure", "discodop/eval.py:readparam"]}
{"id": "C52", "title": "Markovization context in binarized labels", "statement": "binarize(tree, factor='right', horzmarkov=h, vertmarkov=v, artpa): every phrase but the root is annotated with the labels of its v-1 nearest ancestors; a constituent with more than two children becomes a spine of new nodes, each spanning the remaining children, labelled with the constituent's label, the labels of the next h of the children it spans, and (if artpa) the same ancestors; with leftmostunary the spine is put below one more new node with the first h labels, with rightmostunary the last child gets a new node of its own. factor='left' does the same from the right for h <= 2; for larger h (in particular the default, infinite context) it does not: counterexample where all new nodes get the same label.", "quantifier": "every tree whose terminals have no siblings, every h and v >= 1", "why_tests_cant": "unbounded trees and parameters", "anchors": ["discodop/treetransforms.py:binarize"]}
{"id": "C53", "title": "Positions, intervals and alignment", "statement": "getbits lists exactly the positions of the set bits in ascending order; intervals gives maximal runs: ascending, non-adjacent, covering exactly the set bits; alignsent gives every word of a sentence that is a subsequence of the gold sentence the tag of an occurrence of the same word, in order.", "quantifier": "every bit set; every pair of sentences", "why_tests_cant": "unbounded integers and sentences", "anchors": ["discodop/treetransforms.py:getbits", "discodop/eval.py:intervals", "discodop/eval.py:alignsent"]}
{"id": "C54", "title": "The LCFRS parser finds the best derivations", "statement": "plcfrs.parse(sent, grammar) without estimates and beam, for a sentence of less than 64 words, always ends, whatever the order in which equally good agenda items are popped. With exhaustive=True the resulting chart gives a probability to an item (label, set of positions) exactly if the item can be derived with unmasked rules and whitelisted items, namely the probability of its best derivation; the edges stored with an item are exactly those whose daughters can be derived and combined by the yield function of the rule, each once. With exhaustive=False the root item still gets the probability of the best derivation. This needs that no possible tag of a word is also the left hand side of a unary rule: otherwise a worse probability may be stored (counterexample).", "quantifier": "all grammars (with consistent fan-outs), weights, masks, whitelists, sentences, tags and tie-breaking orders", "why_tests_cant": "the claim is about all derivations of all grammars, of which there may be infinitely many (unary cycles); tests can only compare with other parsers on a few sentences", "anchors": ["discodop/plcfrs.pyx:parse", "discodop/plcfrs.pyx:parse_main", "discodop/plcfrs.pyx:process_edge", "discodop/plcfrs.pyx:populatepos", "discodop/plcfrs.pyx:process_lexedge"]}
{"id": "C55", "title": "Maximal common fragments", "statement": "Fragment extraction reports for a pair of trees exactly the maximal connected common parts: each reported node set is a fragment occurring in both trees at some pair of places and no larger common fragment covers it at these places; every common fragment is part of a reported one, and every maximal one is reported itself. For a treebank, tree n is compared with all later trees; for two treebanks with all trees of the other. With a minimum number of terminals exactly the maximal fragments with enough terminals are reported, for trees without unary nodes; below a unary node terminals are not counted (counterexample).", "quantifier": "all pairs of binarized trees and all treebanks with productions numbered by one vocabulary", "why_tests_cant": "the claim is about all common parts of trees of any size", "anchors": ["discodop/_fragments.pyx:extractfragments", "discodop/_fragments.pyx:extractfrompair", "discodop/_fragments.pyx:fasttreekernel", "discodop/_fragments.pyx:extractbitsets", "discodop/_fragments.pyx:extractat"]}
{"id": "C56", "title": "Exact fragment counts", "statement": "exactcounts of a fragment found in one of the trees is the number of places (tree, node) of the treebank where the fragment occurs; with indices=2 these places are listed, each once; every fragment reported by extraction from a single treebank has count at least 2.", "quantifier": "all treebanks and all fragments", "why_tests_cant": "unbounded treebanks; the candidate index could miss trees", "anchors": ["discodop/_fragments.pyx:exactcounts", "discodop/_fragments.pyx:getcandidates", "discodop/_fragments.pyx:containsbitset", "discodop/containers.pyx:Ctrees.indextrees"]}
{"id": "C57", "title": "All fragments up to a depth", "statement": "allfragments(trees, vocab, maxdepth, maxfrontier) gives exactly the connected parts of the trees of at most that depth and number of frontier non-terminals, for trees without unary nodes (or if the limit on frontiers is not reached); with unary nodes it can miss fragments since a unary node with its child counts as an additional frontier (counterexample).", "quantifier": "all binarized trees and limits", "why_tests_cant": "exponentially many fragments of trees of any size", "anchors": ["discodop/_fragments.pyx:allfragments", "discodop/_fragments.pyx:traverse"]}
{"id": "C58", "title": "Node arrays represent the trees", "statement": "getctrees turns a binarized tree into an array holding exactly its nodes, sorted by production, in which following the child links from the root gives the original tree.", "quantifier": "all binarized trees and numberings of productions", "why_tests_cant": "unbounded trees", "anchors": ["discodop/_fragments.pyx:getctrees", "discodop/_fragments.pyx:copynodes", "discodop/containers.pyx:Ctrees.addnodes"]}
{"id": "C59", "title": "Posterior pruning", "statement": "For a chart whose items are listed bottom up, the inside value of an item is the sum of the probabilities (products of rule probabilities) of its derivations, and inside times outside is the sum of the probabilities of the derivations of the sentence that contain the item. posteriorthreshold(chart, k) raises exactly if not 0 < k < 1 or the sentence has probability zero, and otherwise keeps exactly the items for which this sum exceeds k times the probability of the sentence; so no item of a derivation with more than that share is lost. As called from prunechart, the chart still claims log probabilities after the grammar was switched, so a lexical probability p is replaced by exp(-p) (counterexample); with items that are not listed bottom up probability is lost (counterexample).", "quantifier": "all charts, grammars and thresholds; exact arithmetic", "why_tests_cant": "sums over all derivations, of which there are exponentially many", "anchors": ["discodop/coarsetofine.pyx:posteriorthreshold", "discodop/coarsetofine.pyx:getinside", "discodop/coarsetofine.pyx:getoutside", "discodop/containers.pyx:Chart.lexprob"]}
{"id": "C60", "title": "Coarse-to-fine parsing with k=0 loses nothing", "statement": "Filtering a chart keeps exactly the items that occur in a derivation of the sentence, and all derivations. If every rule and tag of the fine grammar projects to one of the coarse grammar and the start symbol is not used inside of trees, then parsing with the fine grammar and the whitelist of the filtered coarse chart blocks no item of any derivation of the sentence and gives the same best probability as without pruning. For split coarse grammars an item is allowed exactly if each of its components is on the list with the corresponding split label; without markorigin nothing is tested.", "quantifier": "all pairs of grammars, sentences of less than 64 words, tie-breaking orders, exhaustive or not", "why_tests_cant": "a claim about all derivations of all sentences; a wrongly pruned item only shows as a slightly worse parse", "anchors": ["discodop/containers.pyx:Chart.filter", "discodop/containers.pyx:_filtersubtree", "discodop/coarsetofine.pyx:prunechart", "discodop/plcfrs.pyx:checkwhitelist"]}
{"id": "C61", "title": "Productions keep their numbers, and the numbers determine them", "statement": "Vocabulary.getprod gives every well-formed production a number that never changes however many productions are added later; two productions get the same number iff they are equal; the numbers are 0, 1, 2, ... without gaps; the label, word and lexical status read back from a number are those of the production; and a vocabulary written with tofile (or pickled) and read with fromfile is the same vocabulary. (Not so when a word equals the reserved name 'Epsilon'; getword of a phrasal production returns an arbitrary label.)", "quantifier": "all histories of getprod calls on well-formed productions, as long as sizes fit 32-bit integers", "why_tests_cant": "Stability and injectivity range over all histories and all pairs of productions; a test vocabulary exercises a few.", "anchors": ["discodop/containers.pyx:Vocabulary.getprod", "discodop/containers.pyx:Vocabulary.tofile", "discodop/containers.pyx:Vocabulary.fromfile", "discodop/containers.pyx:getyf"]}
{"id": "C62", "title": "Parallel extraction of recurring fragments", "statement": "recurringfragments(trees, sents, numproc, maxdepth, maxfrontier) returns exactly the maximal common fragments of pairs of different trees, plus (if maxdepth > 0) all fragments within the limits, each once; its value for a fragment is the list of the numbers of the trees with an occurrence, one entry for each occurrence, in ascending order. The result is the same for every number of processes and every order in which the processes visit their sets. workload(numtrees, mult, numproc) divides the trees in consecutive intervals without gap or overlap, at most mult * numproc of them, each with at most an equal share of the comparisons plus those of one tree.", "quantifier": "all treebanks, numbers of processes and set iteration orders", "why_tests_cant": "the iteration order of sets of strings differs between runs and processes; work division depends on the number of trees and processes", "anchors": ["discodop/fragments.py:recurringfragments", "discodop/fragments.py:workload", "discodop/fragments.py:worker", "discodop/fragments.py:exactcountworker", "discodop/_fragments.pyx:collectfragments", "discodop/_fragments.pyx:getsubtree", "discodop/_fragments.pyx:allfragments"]}
{"id": "C63", "title": "Parallel parsing and evaluation do not depend on the schedule", "statement": "In an experiment with any number of worker processes, for every order in which results of the sentences arrive, the trees, sentences, log probabilities, statistics recorded under a sentence id are the results for that very sentence, the evaluation adds up every pair of gold tree and parse exactly once, and two runs with different arrival orders write the same files and report the same scores; results arriving twice for a sentence stop the run. The command-line parser reading one word per line parses exactly the blocks of non-blank lines, numbered from 1, and writes output in input order.", "quantifier": "all test sets with distinct ids, all parsers, tree-pair evaluations, all permutations of arrivals, all numbers of stages; all input lines", "why_tests_cant": "the order of arrival depends on process scheduling: there are n! orders and tests see one; counters, score accumulation and blank-line handling range over all inputs", "anchors": ["discodop/runexp.py:doparsing", "discodop/runexp.py:worker", "discodop/runexp.py:writeresults", "discodop/eval.py:Evaluator.add", "discodop/eval.py:EvalAccumulator.scores", "discodop/parser.py:readinputbitparstyle", "discodop/parser.py:doparsing"]}
{"id": "C64", "title": "A Double-DOP grammar is the tree-substitution grammar of its fragments", "statement": "dopgrammar (Double-DOP) on fragments with frequencies gives a grammar and a backtransform such that the derivations of the grammar correspond one-to-one with the derivations of the tree-substitution grammar whose elementary trees are the fragments: each derivation has the product of the relative frequencies of its fragments (among those with the same root) as probability, every derivation of the grammar from a treebank label is the encoding of exactly one TSG derivation, and recoverfragments turns it into the tree that results from substituting the fragments, with the words at the same positions.  This needs labels and words without '}<', labels without '@', and that every label introduced by binarization has a single rule; the latter holds for continuous fragments with labels that contain no commas, and fails for some discontinuous fragments (the identifier of a binarized node depends only on the labels and the last yield function): there fragments are mixed and their probability is divided.", "quantifier": "all lists of fragments with frequencies (any size, number and shape), all sentences, all derivations", "why_tests_cant": "the set of derivations is infinite and the correspondence must hold for all of them; sharing of identifiers between fragments depends on the whole set of fragments", "anchors": ["discodop/grammar.py:dopgrammar", "discodop/grammar.py:flatten", "discodop/grammar.py:UniqueIDs", "discodop/grammar.py:sortgrammar", "discodop/treetransforms.py:factorconstituent", "discodop/treetransforms.py:getyf", "discodop/disambiguation.pyx:recoverfragments"]}
{"id": "C65", "title": "Disambiguation: parse probabilities are sums over derivations", "statement": "marginalize turns the k-best derivations into parse trees such that, for 'mpp', every parse tree is listed exactly once, exactly the trees of the given derivations are listed, the probability of a tree is the sum of the probabilities of its derivations (every derivation counted exactly once, in whatever order they come) and the tree selected by the parser has the largest such sum; for 'mpd' each entry carries the probability and fragments of the most probable derivation with its fragment boundaries and the selected tree is that of the most probable derivation; for 'shortest' only derivations with the smallest number of fragments count, that number is reported and ties are broken by the probability under the other model; 'sl-dop-simple' returns the n most probable trees with the smallest number of fragments of any of their derivations; required/blocked labelled spans filter exactly; and sums of log probabilities equal the sums of the probabilities (exactly in real arithmetic).", "quantifier": "all lists of derivations (any number, any costs, any order), all derivation trees with any addresses, all grammars' backtransform functions including failing ones, all constraint sets", "why_tests_cant": "the merging of derivations into trees depends on arbitrary lists of strings with addresses; a test can only check a few lists, not that no derivation is ever lost or double counted.", "anchors": ["discodop/disambiguation.pyx:marginalize", "discodop/disambiguation.pyx:sldop_simple", "discodop/disambiguation.pyx:testconstraints", "discodop/disambiguation.pyx:REMOVEIDS", "discodop/containers.pxd:logprobsum", "discodop/containers.pxd:logprobadd", "discodop/parser.py:Parser.parse"]}
{"id": "C66", "title": "Max Constituents Parse: optimal over all trees built from observed spans", "statement": "maxconstituentsparse turns k-best derivations into a table in which the share of every labelled constituent (label and set of words, continuous or not) is exactly the summed probability of the derivations that contain it divided by the total; and if for every word some tag is worth including, it returns a single tree that has every word of the sentence exactly once, consists only of constituents of the derivations, and has an expected number of correct minus lambda times incorrect constituents (constituents worth less than nothing being left out) that is at least that of every binary tree over the sentence whose spans occur in the derivations, in particular of every derivation.  Without a worthwhile tag for every word, words can get lost.", "quantifier": "all sentence lengths, all non-empty lists of binarized derivations of the sentence with positive probabilities, discontinuous or not, all label sets, all lambda >= 0, all competing trees", "why_tests_cant": "optimality is a claim about exponentially many competing trees for every list of derivations; a test compares with a few", "anchors": ["discodop/disambiguation.pyx:maxconstituentsparse", "discodop/disambiguation.pyx:gettree"]}
{"id": "C67", "title": "Outside estimates for A* parsing are admissible, tight and consistent", "statement": "getpcfgestimates gives, for every constituent of every tree of the grammar for a sentence of at most maxlen words, an estimate for its label and number of words to the left and right such that the cost of the constituent plus the estimate is no more than the cost of the tree; every finite estimate is the cost of an actual context (around every tree for the label), going from daughter to parent the estimate decreases by no more than the cost of the rule and the sibling, and the computation ends after a number of steps bounded by grammar size and maxlen.  This holds if no label occurs in more rules of one kind than there are nonterminals; otherwise rules are skipped and the estimates can be inadmissible.", "quantifier": "all PCFGs (any rules, any non-negative weights, recursive or not), all maxlen, all tie-breaking of the agendas, all trees and constituents", "why_tests_cant": "admissibility is about every tree of the grammar and every context; a test checks a few grammars, and the skipped rules only matter for grammars with many rules per label", "anchors": ["discodop/estimates.pyx:getpcfgestimates", "discodop/estimates.pyx:pcfginsidesx", "discodop/estimates.pyx:pcfgoutsidesx"]}
{"id": "C68", "title": "A* parsing with admissible outside estimates finds the best parse", "statement": "Parsing with outside estimates of type SX (grammars without discontinuity) or SXlrgaps (any LCFRS) that are admissible for the grammar and sentence gives the root exactly the negative log probability of the most probable derivation with the whitelist and blocked rules, if that is at most MAX_LOGPROB, and no parse otherwise; in particular with the estimates of getpcfgestimates for the same PCFG and a maximum length of at least that of the sentence.  It holds whether or not parsing stops at the first complete derivation and however ties are broken, parsing always ends, in a number of iterations bounded by labels, positions and MAX_LOGPROB.  A parse that is less probable than exp(-MAX_LOGPROB) is lost, although it is found without estimates.", "quantifier": "all binarized LCFRS rules with any probabilities, all sentences of less than 64 words, all whitelists, masks and estimates that are admissible, all tie-breaking of the agenda", "why_tests_cant": "optimality is a statement about all derivations and all orders in which items leave the agenda; items may be re-added to the agenda when a better derivation turns up later, which a test hits only for particular scores", "anchors": ["discodop/plcfrs.pyx:parse_main", "discodop/plcfrs.pyx:populatepos", "discodop/plcfrs.pyx:process_edge", "discodop/plcfrs.pyx:process_lexedge", "discodop/estimates.pyx:getpcfgestimates"]}
{"id": "C69", "title": "Evaluation parameters remove exactly the intended words and constituents", "statement": "Before scoring, the transformation by the parameter file succeeds on every wellformed tree; the remaining words (and tags) are exactly those whose gold tag is not in DELETE_LABEL, that are not in DELETE_WORD and, with DELETE_ROOT_PRETERMS, are not attached to the gold root, in order, with EQ_WORD applied; the nodes of the result below the root are, in preorder, exactly the nodes of the tree that have words left and, if phrasal, a label (after EQ_LABEL) not in DELETE_LABEL, over their remaining words at their new positions, and this description determines the tree.  For a gold and a candidate tree of the same words, the remaining words always agree, so no length or word mismatch is reported.  Extra phrasal nodes with a deleted label or nodes without words make no difference.  The label of the root is never mapped by EQ_LABEL.", "quantifier": "all trees (discontinuous or not, with empty nodes), sentences, parameter settings and gold tags", "why_tests_cant": "the in-place loop pops, splices and deletes children while iterating and renumbers leaves afterwards; whether an index is off or a node is skipped depends on the tree and on which words are deleted", "anchors": ["discodop/eval.py:transform", "discodop/eval.py:TreePairResult", "discodop/eval.py:alignsent"]}
{"id": "C70", "title": "The unknown-word model gives the parser words the grammar covers", "statement": "With the unknown-word model estimated on a tagged training set, rare words (frequency at most the threshold and never seen with a closed class tag) are replaced in the training sentences by their signature, years by '1970' and other numbers by '000', every other word is kept; the extra lexical rules are exactly the rare words with each tag they were seen with (weight = count) and the catch-all signature with every tag; and for every test sentence, each word handed to the parser is a word of the resulting grammar, except '1970' / '000' when the training data has no year / number, and signatures that in training belonged to numerals only.", "quantifier": "all tagged training sets, thresholds, signature functions and test sentences", "why_tests_cant": "the set of training sets and test words is unbounded, and the gap (signatures counted from numerals which are then replaced by '000') shows only for particular combinations of training and test words", "anchors": ["discodop/lexicon.py:getunknownwordmodel", "discodop/lexicon.py:replaceraretrainwords", "discodop/lexicon.py:replaceraretestwords", "discodop/lexicon.py:simplesmoothlexicon", "discodop/lexicon.py:unknownword4", "discodop/runexp.py:getposmodel", "discodop/parser.py:Parser.parse"]}
{"id": "C71", "title": "The binary grammar cache gives back the grammar that was stored", "statement": "Writing a grammar with tobinfile and loading the file with frombinfile gives a grammar with the same labels, label numbers, fan-outs, frequency masses, rules (in the same order, with the same numbers and counts), lexical rules and words, with all arrays sorted; if the probabilities in use were the normalized counts, the rules and lexical rules carry the same probabilities. The buffer that is allocated has exactly the size of what is written into it. A file cut off before its last (pickled) part is never accepted: the reader goes past the end of the data, without a check. Labels or words with a NUL byte and yield functions with an empty component do not survive.", "quantifier": "all grammars that can be built from rules and a lexicon and extended with addrules, whose sizes and weights fit in the file format", "why_tests_cant": "The layout is computed byte by byte from sizes that depend on the grammar; a test sees one grammar, and the reader recomputes the fan-outs from the rules instead of storing them.", "anchors": ["discodop/_grammar.pxi:Grammar.tobinfile", "discodop/_grammar.pxi:Grammar.frombinfile", "discodop/parser.py:readgrammars"]}
{"id": "C72", "title": "Head rules mark exactly one head per constituent, the one the rules prescribe", "statement": "After applyheadrules every node with children has exactly one child marked as head (when at most one was marked before); labels, functions and structure are unchanged, and applying the rules again changes nothing. The head is the child already marked; else the first child with function tag HD; else the child picked by the first rule of the node's label that matches (LEFT/RIGHT: by the order of the head labels in the rule; LEFTDIS/RIGHTDIS: by the order of the children), moved before a preceding conjunction to the closest non-punctuation; else the first non-punctuation child in the direction of the last rule. Other children are modifiers iff a modifier rule matches or they repeat the label of the previous non-head sibling, and complements otherwise. Rules for a label accumulate in the order of the file. Contrary to the documentation, rules never apply to nodes whose label has lower case letters: the file is upper-cased, the label of the node is not.", "quantifier": "all trees, rule tables and modifier rules, any upper-casing function", "why_tests_cant": "The choice depends on the combination of marks, functions, rule order, direction and coordination in an arbitrary list of children; tests show a few constituents.", "anchors": ["discodop/heads.py:headfinder", "discodop/heads.py:applyheadrules", "discodop/heads.py:readheadrules", "discodop/heads.py:markmodifiers"]}
{"id": "C73", "title": "Dependency conversion gives a rooted dependency tree whose subtrees are the constituents", "statement": "For a tree in which every node has a head, dependencies() gives exactly one head for every token, in sentence order; the arcs are exactly those from the head token of a non-head child to the head token of its parent, labelled with the child's function, plus one 'root' arc to 0 per child of the root. Following heads from any token ends in 0 and there are no cycles. The tokens below the head token of a non-head child are exactly the tokens of that child; without discontinuous constituents the dependencies are projective. The conll rows pair each word with its own tag and dependency. deplen does not leave out the root arcs, as it looks for 'ROOT' and the label is 'root'.", "quantifier": "all head-marked trees, continuous or discontinuous, of any size", "why_tests_cant": "Acyclicity, the yield of each dependency subtree and the alignment of three sorted sequences quantify over all trees and all tokens.", "anchors": ["discodop/treebank.py:dependencies", "discodop/treebank.py:_makedep", "discodop/treebank.py:writedependencies", "discodop/treebank.py:deplen", "discodop/heads.py:getheadpos"]}
{"id": "C74", "title": "Regex search over plain text reports the right line and position", "statement": "The line index of a file has one entry per non-blank line, so line numbers count non-blank lines. extract gives the text of line k (without line end) when blank lines are empty, and an error for other numbers. A query with start and end searches exactly the text from the start of line start up to the line after end; every result is a (non-empty) match, at most the maximum number and in order, with the number of the line in which the match starts, the text of that line, and its start and end within the line (in characters, not bytes); the indices-only query gives the same line numbers. Limits: blank lines with other white space become part of the preceding line, an empty match at the end of the file is an error, an empty file cannot be searched, and a stored index is reused for other files.", "quantifier": "all files (byte strings), line ranges, maxima, any matcher returning spans in the searched text and any decoder", "why_tests_cant": "Offsets, chunk offsets, line ranks and decoding interact for arbitrary placement of matches, blank lines and ranges.", "anchors": ["discodop/treesearch.py:_indexfile", "discodop/treesearch.py:_getoffsets", "discodop/treesearch.py:_regex_run_query", "discodop/treesearch.py:RegexSearcher"]}
{"id": "C75", "title": "Search caches never change results (and where they do)", "statement": "The cache of a searcher never has more entries than its limit, and gives for a query what was stored last. After any history of counts calls, with jobs ending in any order, counts returns the same as without cache. sents/trees with a maximum returns, after any history, the first results up to the maximum. Refuted: after a search without maximum the same search with a maximum is an error; regex sents stores its results under the position of its last match, so that another query gets them; a query of several fragments returns fewer results the second time.", "quantifier": "all histories of queries, cache sizes, completion orders, search functions", "why_tests_cant": "Depends on the entire history of calls and evictions; tests make one or two calls on a fresh searcher.", "anchors": ["discodop/treesearch.py:FIFOOrederedDict", "discodop/treesearch.py:RegexSearcher.counts", "discodop/treesearch.py:RegexSearcher.sents", "discodop/treesearch.py:FragmentSearcher.sents"]}
{"id": "C76", "title": "Highlighting colors exactly the matching characters", "statement": "applyhighlight outputs the text unchanged with color codes such that exactly the characters at the first set of indices have the first color, those at the second set only the second color, all others none, and the color is reset at the end. charindices maps token numbers to the characters of those tokens (with the space after each) in the sentence joined with spaces.", "quantifier": "all texts, index sets, colors", "why_tests_cant": "Adjacent, overlapping and boundary spans in arbitrary combination.", "anchors": ["discodop/treesearch.py:applyhighlight", "discodop/treesearch.py:charindices"]}
{"id": "C77", "title": "Optimal binarization has the lowest maximal score", "statement": "optimalbinarize always returns a tree in which every node has at most two children, the same terminals, and each constituent with more than two children replaced by binary nodes over these children. Without headdriven no way to group the children of the constituents (in any order) has a lower maximal score over the nodes of the tree; with headdriven, for a tree in canonical order, none among those that are chains ending in the last child. This holds for complexityfanout, fanoutcomplexity and any other score that is monotone in fan-out and complexity. unbinarize gives back the original tree up to the order of children.", "quantifier": "all trees whose terminals have no siblings and are distinct, all monotone scores, all values of h and v, head-driven or not", "why_tests_cant": "the best-first search explores an exponential number of partial binarizations, which unit tests do not compare with all alternatives; a docstring checks two scores for one tree", "anchors": ["discodop/treetransforms.py:optimalbinarize", "discodop/treetransforms.py:minimalbinarization", "discodop/treetransforms.py:complexityfanout", "discodop/treetransforms.py:fanoutcomplexity", "discodop/treetransforms.py:unbinarize"]}
{"id": "C78", "title": "Parsing and k-best extraction together give the best derivations of the grammar", "statement": "Parsing a sentence with a PCFG and extracting the k best derivations from the chart gives a list of at least one and at most k derivation trees of the grammar over exactly the words of the sentence, each with the sum of the negative log probabilities of its rules, all different as trees, ordered from best to worst, the first one being a best derivation among all derivations the grammar has for the sentence; there is no result exactly if the grammar has no derivation. The list contains the k best (or all) derivations of the grammar if no rule occurs with the same split point in two spans; without that condition derivations are missing even when fewer than k are found (five words and the single rule X -> X X: ten of fourteen).", "quantifier": "all PCFGs with unary rules of bounded depth (no unary cycles), lexicons, gold tags, masks, agenda orders, sentence lengths and k", "why_tests_cant": "A test parses one sentence with one grammar and looks at a few trees; that the whole list is sound, ordered, free of duplicate trees and, under the condition, complete is about all grammars and all derivations.", "anchors": ["discodop/pcfg.pyx:parse", "discodop/kbest.pyx:lazykbest", "discodop/kbest.pyx:lazykthbest", "discodop/kbest.pyx:getderiv"]}
{"id": "C79", "title": "Generated sentences are derivations of the grammar, and every derivation can be generated", "statement": "Whatever random numbers are drawn, gen() applied to the tables made by splitgrammar returns the yield of a derivation of the given rules from the start label (as many components as its fan-out, the yield functions applied as written) and the product of the weights of its rules (a unary rule of weight 1 counting as 0.99999999), and leaves the rule counts as they were. A rule is chosen exactly when the random number is in an interval whose length is its share of the total weight, discounted for every time it is in use on the path to the root; a choice is always made. Conversely every derivation of a grammar with positive weights is generated by some random numbers, provided no label has both lexical and other rules (otherwise the lexical rules are never used) and unary rules do not merge components. Yield functions survive conversion to arrays and back.", "quantifier": "all rule lists accepted by splitgrammar with linear yield functions, start labels, discounts, sequences of random numbers, recursion depths", "why_tests_cant": "A test sees one random sentence at a time; that every outcome is a derivation and that none is excluded is about all sequences of random numbers.", "anchors": ["discodop/gen.py:gen", "discodop/gen.py:chooserule", "discodop/gen.py:compose", "discodop/gen.py:splitgrammar", "discodop/gen.py:yfarray", "discodop/gen.py:arraytoyf"]}
{"id": "C80", "title": "Reading a bitpar grammar keeps the phrasal rules with relative frequencies and loses the lexicon", "statement": "read_bitpar_grammar fails exactly if a rule does not have one or two right-hand side labels. Otherwise the phrasal rules are returned in order, with context-free yield functions, and with weights that are the relative frequencies per left-hand side (summing to one) if all weights of rules and lexicon are whole numbers, and the given weights otherwise. The lexical rules, contrary to what the function promises, are never returned, whatever the lexicon.", "quantifier": "all lists of rules with rational weights and all lexicons", "why_tests_cant": "the function is not tested; that the lexicon is lost for every input follows from iterators being consumed, which needs a model of iteration rather than examples", "anchors": ["discodop/gen.py:read_bitpar_grammar"]}
{"id": "C81", "title": "The k best derivations of an LCFRS parse are derivations of the sentence, different, in order, and the first is the best", "statement": "For a sentence of fewer than 64 words, parsing exhaustively with a binarized LCFRS (whatever the order in which the agenda breaks ties, with any whitelist and any mask on the rules) and then asking for the k best derivations yields at most k results; each is a discontinuous derivation tree of the start label over the whole sentence with the sum of the negative log probabilities of its rules; no derivation occurs twice; they are ordered from best to worst; and the first is at least as good as every derivation of the grammar. There is no result exactly if the grammar has no derivation of the sentence. If no rule is used with the same left daughter span for two different spans, then the results are the k best of all derivations; without that condition some derivations can be missing.", "quantifier": "all binarized LCFRS grammars with acyclic unary rules, tagged sentences, whitelists, masks, k, orders of ties in the agenda", "why_tests_cant": "The number of derivations of a sentence is exponential and the result composes two algorithms with mutable shared state; only examples can be enumerated.", "anchors": ["discodop/plcfrs.pyx:parse_main", "discodop/plcfrs.pyx:SmallLCFRSChart", "discodop/kbest.pyx:lazykbest", "discodop/kbest.pyx:getderiv"]}
{"id": "C82", "title": "Incremental tree reader finds every tree", "statement": "incrementaltreereader, given lines that together contain bracketed trees separated by text without brackets (preceded by lines without brackets and possibly followed by an unfinished tree), yields exactly those trees in order, each with the text that follows it (trailing whitespace stripped), no matter how the text is divided into lines, with either value of strict, and with robust for trees with at least two levels of brackets; with othertext the other lines are yielded without a tree and the text after a tree is cut at its first line ending. Blocks in export format yield their trees in order. Reading back the lines written by writediscbrackettree yields the same trees and sentences. Text before the first tree on a line makes reading fail, and the origin table of an export file is yielded as an empty tree (both refuted as findings).", "quantifier": "all sequences of trees and texts, all divisions into lines, all parsers for single trees, both values of strict, robust and othertext", "why_tests_cant": "the reader is a set of coroutines with state carried over lines (open brackets, maximal depth, an incomplete tree, a complete tree waiting for its text); tests use a few files in which each tree is on a single line", "anchors": ["discodop/treebank.py:incrementaltreereader", "discodop/treebank.py:segmentbrackets", "discodop/treebank.py:segmentexport", "discodop/treebank.py:segmentalpino"]}
{"id": "C83", "title": "Relational-realizational transformation is reversible", "statement": "For every tree whose phrase labels have no hyphen, whose part-of-speech tags and (non-empty) morphology have no slash, and whose functions are non-empty without slash (and without colon unless it is the adjunction label), rrtransform succeeds when ignorefunctions and ignorecategories are given, and rrbacktransform of the result restores the labels, the functions of all nodes but the root and the morphology of preterminals. The transformed tree has the same words; each constituent becomes its category, a node with the sorted functions of its arguments, and one realization per child with its function and the parent category; an adjunct is labelled with the function of the nearest argument on its left. The right neighbour of an adjunct is not the nearest argument on its right (refuted), and the default parameters make the transformation fail (refuted).", "quantifier": "all trees, all morphological fields and functions, all values of morphlevels, percolatefeatures, adjunctionlabel, ignorefunctions, ignorecategories, adjleft, adjright", "why_tests_cant": "the labels of three nodes are composed and taken apart by separators; whether that is unambiguous depends on every string in the treebank; the doctests contain no tree for this function", "anchors": ["discodop/treebanktransforms.py:rrtransform", "discodop/treebanktransforms.py:rrbacktransform", "discodop/treebanktransforms.py:unifymorphfeat"]}
{"id": "C84", "title": "An experiment is all or nothing, and a failing sentence fails it under every schedule", "statement": "When sentences are parsed by worker processes, the experiment runs to the end if and only if every sentence can be parsed and every parse can be compared with its gold tree, whatever the order in which results (or exceptions) arrive; otherwise no file is written. If it runs to the end, then for every stage and sentence the recorded tree, log probability, number of fragments, chart statistics are those the parser returned for that stage and sentence, tree files and statistics are in the order of the test set, the number of sentences without parse is exact, and all tables, files and scores (recall, precision, F, exact match, tags, leaf-ancestor, tree distance, also for short sentences) are the same for any two orders of arrival.", "quantifier": "all test sets with distinct ids, all parsers that return one result per stage or fail, all comparisons that may fail, all orders of arrival, all numbers of stages, all length cutoffs", "why_tests_cant": "the order of arrival and which sentence fails first depend on scheduling; a test sees one schedule", "anchors": ["discodop/runexp.py:doparsing", "discodop/runexp.py:worker", "discodop/runexp.py:writeresults", "discodop/eval.py:Evaluator.add", "discodop/eval.py:EvalAccumulator"]}
{"id": "C85", "title": "Function tags and morphology in labels can be added, removed and read back without touching words", "statement": "handlefunctions keeps the words under every action and options; adding or replacing tags changes exactly the labels of the nodes that have a tag and are selected by the options, removing cuts each label at its first hyphen or equals sign (labels such as -NONE- stay) and is idempotent; adding and then removing tags equals removing them; tags put between nodes can be taken out again with the tree and all tags intact; tags added to labels are read back by the bracket reader exactly when they are not numbers and do not end in a digit or equals sign; the list of function tags joined by hyphens is the tag. handlemorphology keeps the word of a preterminal in place, changes no other word, writes labels without parentheses and spaces, and an added morphology without slashes can be told apart from the label; morphfeats gives the parts between the first brackets. Tags ending in a digit (Alpino's obj1) lose it, and a Penn label NP-SBJ-1 gives an empty second tag.", "quantifier": "all trees, labels, tags, options and morphology strings", "why_tests_cant": "labels and tags are arbitrary strings of treebanks and options combine; tests have a few labels", "anchors": ["discodop/treebank.py:handlefunctions", "discodop/treebank.py:handlemorphology", "discodop/treebank.py:BracketCorpusReader._parse", "discodop/treebanktransforms.py:functions", "discodop/treebanktransforms.py:morphfeats"]}
{"id": "C86", "title": "The stages of the parser: reports, fallbacks and partial parses", "statement": "Parsing a sentence gives exactly one result per stage, and every sentence, parseable or not, gets a tree in every stage. A result that is not marked as noparse is the postprocessed most probable tree of that stage, has no empty nodes and has exactly the words of the sentence; a result marked as noparse is the latest tree that was accepted in an earlier stage (postprocessed for this stage), or a flat tree over the given tags when there is none, and this only happens when the stage has no tree or its best tree is not valid. When a stage has a complete parse with a valid tree, that tree is reported whatever happened before. A sentence that cannot be parsed is split into the largest parseable segments; the trees of the segments, shifted to their positions, cover every word exactly once, and the probability is the product of those of the segments. Parsing ends.", "quantifier": "all sentences, tags, start symbols, sequences of stages with any pruning dependencies and modes, and all behaviours of the parser, disambiguation and postprocessing of each stage (including exceptions)", "why_tests_cant": "A test runs one grammar with a couple of stages on a few sentences which mostly parse; which combinations of failing, skipped and invalid stages occur depends on grammars, pruning and sentences.", "anchors": ["discodop/parser.py:Parser.parse", "discodop/parser.py:Parser.noparse", "discodop/parser.py:probmult", "discodop/kbest.pyx:partitionincompletechart", "discodop/grammar.py:defaultparse"]}
{"id": "C87", "title": "Raising discontinuous components gives a continuous tree with all words", "statement": "raisediscnodes keeps the words in their order and makes every constituent contiguous; it raises an error exactly when some node has neither a word nor a head among its children. Nodes that are continuous keep their label, head mark and words; of a discontinuous node exactly those components remain, with its label and without a head mark, that contain words of a head child which is itself continuous; the children of the other components become children of the parent. In particular a node whose only head is continuous is kept exactly once, with the component of its head. A node whose head is discontinuous disappears from the tree, and labels of the input that look like those of parts (NP*) are treated as parts.", "quantifier": "all trees with words 0..n-1 in any order and any nesting of discontinuous nodes, all labels and head marks", "why_tests_cant": "the documentation tests one tree; nesting, the number of components and the place of heads vary without bound", "anchors": ["discodop/treetransforms.py:raisediscnodes", "discodop/treetransforms.py:splitdiscnodes"]}
{"id": "C88", "title": "Reordering a sentence gives a continuous tree that shows the same tree of words", "statement": "canonicallyorderedtree returns a tree whose words are numbered 0, 1, ... in its own order and a sentence of the same length such that the tree of labels and words is that of the input with the children of every node in the order of their rightmost words; no word changes its part-of-speech tag or its constituents. Every constituent of the result is contiguous. When every word is in the tree the new sentence is a permutation of the old one; words that are not in the tree are lost, and the sentence is filled up with None. The result depends only on the input up to the order of children, not on the function tags; a tree whose words are in order is unchanged, and reordering twice is reordering once.", "quantifier": "all trees with distinct words of a sentence, of any shape, and any function tags", "why_tests_cant": "the documentation shows one tree; the numbering depends on the sorted shape of the whole tree", "anchors": ["discodop/treetransforms.py:canonicallyorderedtree", "discodop/treetransforms.py:canonicalizealpino"]}
{"id": "C89", "title": "Undoing the grammatical transformations gives back the tree", "statement": "transform applied with any sequence of transformations never loses, adds or renumbers a word. Transformations that only add a mark to a label (parent annotation, year, unary, punctuation, TagPA, VP-GF, NP-PP, ...) are all undone by reversetransform, in any number and order and on top of any other transformations; a tree with its children in order is then given back exactly. Fan-out marks, DP nodes, appended function tags and function nodes are undone for all trees whose labels do not themselves contain the marks; function tags and labels survive the round trip. Lemma nodes keep every label and give back the lemma as it was written. Undoing morphology nodes does not give the tree back: tag and morphology of each word are exchanged; appending morphology never succeeds.", "quantifier": "all trees (also discontinuous) with labels free of the marks, all sentences, all sequences of the transformations modelled", "why_tests_cant": "the tests compare phrasal brackets of one treebank after one sequence of transformations; the round trip must hold for every tree and sequence, and the errors are below the level that is compared", "anchors": ["discodop/treebanktransforms.py:transform", "discodop/treebanktransforms.py:reversetransform"]}
{"id": "C90", "title": "Reducing the Markov order of rare labels renames consistently and does not change the debinarized trees", "statement": "markovthreshold changes nothing but labels: nodes, words and heads stay. The new label of a node is a function of its old label only; a label changes only if it has the form X|<...> and occurs fewer than n times in all trees together, counted before any change; then the siblings after the h-th are left out, so that labels which differ only there become the same. Debinarizing the trees before and after gives the same trees. The option for the vertical order has no effect: the regular expression takes the parent for a part of the last sibling, so the parent is dropped with the siblings, or kept whole.", "quantifier": "all collections of binarized trees, all labels without newlines, all thresholds and orders", "why_tests_cant": "there is no unit test; the outcome depends on how greedy groups share a label and on counts over the whole treebank", "anchors": ["discodop/treetransforms.py:markovthreshold", "discodop/treetransforms.py:MARKOVRE", "discodop/treetransforms.py:unbinarize"]}
{"id": "C91", "title": "Collapsing labels for coarse-to-fine parsing renames phrases consistently, and the mapping is right", "statement": "collapselabels keeps words, shape, root labels and part-of-speech tags. The label of every other phrase becomes a function of it: every name in it (also in labels made by binarization) is replaced by its coarse label, part-of-speech tags stay, other names are dropped, separators stay except hyphens, and carets at the end go. It fails exactly when there are no trees, a node has no children, or a collapsed label does not start with a letter. The mapping that is returned gives the new label of every node of every tree if the trees have one root label that no other phrase has, and no tag with separators is also the label of a phrase. Labels that differ in fan-out become the same, and labels of parts of discontinuous phrases (VP*) cannot be collapsed.", "quantifier": "all collections of trees, all labels and all mappings of labels", "why_tests_cant": "there is no unit test; labels after binarization and other transformations are unbounded combinations of names and marks", "anchors": ["discodop/treebanktransforms.py:collapselabels", "discodop/treebanktransforms.py:LABELRE"]}
{"id": "C92", "title": "SL-DOP returns the most likely trees with their shortest derivations; treeparsing prunes to the given trees", "statement": "With the method 'sl-dop', the trees considered are (at most n) most likely ones: the probability of a tree is the sum over its derivations, and no tree left out is more probable. Of those, exactly the trees with a derivation among the shortest derivations found by the second parse are returned, each once, with the (negated) number of steps of a shortest derivation, such a derivation, and the summed probability of the tree. If every label (and, with maskrules, every rule) of the trees is in the grammar, treeparsing lets the parser use exactly the labelled spans of the trees and, with maskrules, exactly their rules and the rules these map to, and does not change the grammar. Without maskrules trees with an unknown label are rejected; with maskrules an unknown label is only noticed if no production of an earlier node mentions it, and an unknown rule never is (rule 0 becomes active instead). 'sl-dop' leaves the selected model and the mask as they were if the second parse succeeds; the model is not restored otherwise, and treeparsing leaves rules blocked when it meets an unknown label.", "quantifier": "all lists of derivations with probabilities, all n, grammars, trees and parsers", "why_tests_cant": "the properties compare with all derivations and all trees, and the state left in the grammar matters for every later sentence", "anchors": ["discodop/disambiguation.pyx:sldop", "discodop/disambiguation.pyx:treeparsing", "discodop/_grammar.pxi:Grammar.setmask", "discodop/_grammar.pxi:Grammar.switch"]}
{"id": "C93", "title": "The DOP probability of a given parse tree is the sum over all its derivations", "statement": "dopparseprob returns, for a binarized tree, the sum of the probabilities of all derivations of exactly that tree under a DOP reduction whose root is the label of the tree: every way to decorate its nodes with rules that the mapping from the coarse grammar gives for their productions, with matching addressed labels, and its words with lexical rules for their tags (an unknown word has its tag with probability 1), each counted once; it is zero (logarithm -inf) exactly when there is none. This holds if nodes that span the same words have different labels (all share one chart cell); with a repeated label in a chain of unary nodes the result is too large.", "quantifier": "all binarized trees (also discontinuous), reductions, mappings, lexicons and probabilities", "why_tests_cant": "the number of derivations is exponential in the size of the tree, so a test can compare with an enumeration only for small trees", "anchors": ["discodop/disambiguation.pyx:dopparseprob", "discodop/disambiguation.pyx:doprerank"]}
{"id": "C94", "title": "The fragments reported for a derivation make up the parse tree", "statement": "For a derivation of a DOP reduction (root without address), the list of fragments reported for it has one fragment per unaddressed node, i.e. as many as the length of the derivation that 'shortest' and SL-DOP count; substituting them, in the order in which they are listed, at the left-most substitution site (whose label is the root label of the fragment) gives the parse tree of the derivation, uniquely, with no site left; with the addresses kept it gives the derivation itself. If no constituent is discontinuous, the words of each fragment and the ranges at its sites are exactly the words of its part of the tree, in order; a discontinuous site is reported as its first to last word, including the words in the gap.", "quantifier": "all derivations", "why_tests_cant": "composition must give back the whole derivation for trees of any shape and depth", "anchors": ["discodop/disambiguation.pyx:fragmentsinderiv_str", "discodop/disambiguation.pyx:splitfrag", "discodop/disambiguation.pyx:frontiernt"]}
{"id": "C95", "title": "The weights in use are those of the selected model, in every array and after any history of switches", "statement": "Grammar.switch(name, logprob) gives every rule, in each of the arrays in which it is stored (by left-hand side, unary, left and right daughter), and every lexical rule the weight of the named model: relative frequency (count divided by the total for its left-hand side) for 'default', and the alternative weight at its number otherwise, as a logarithm or not as requested; nothing else about the grammar changes. After any two histories of switches that end with the same selection the grammars are identical. It fails exactly for an unknown model or one with the wrong number of weights. incrementrulecount adds to the count of the rule and the total of its left-hand side only; the weights follow when another model or representation is selected, but not when the one in use is selected again, since that has no effect.", "quantifier": "all grammars, alternative models and histories of switches", "why_tests_cant": "the result must be independent of the history of selections, which is unbounded", "anchors": ["discodop/_grammar.pxi:Grammar.switch", "discodop/_grammar.pxi:Grammar.incrementrulecount"]}
{"id": "C96", "title": "Looking up productions never changes what is in the grammar; unknown productions get number 0 silently", "statement": "getruleno finds the number of every rule of a grammar, after any history of lookups of whatever productions, and looking up a rule of the grammar changes nothing; no lookup changes the tables of rules, counts, labels and words or the numbers of known rules and labels. noderuleno agrees with getruleno for nodes of continuous trees. A production that is not in the grammar does not raise an error: it has number 0 (that of another rule), and an unknown label the number of Epsilon, from then on, so that a rule or label that was looked up can no longer be added with addrules: the weight goes to rule 0, or the rule is rejected.", "quantifier": "all grammars and all histories of lookups and additions", "why_tests_cant": "the claim is about every history of lookups before a later operation", "anchors": ["discodop/_grammar.pxi:Grammar.getruleno", "discodop/_grammar.pxi:Grammar.noderuleno"]}
{"id": "C97", "title": "Label and rule mappings to a coarser grammar are total, exact and can be extended", "statement": "getmapping succeeds iff every label (from startidx) that is not blocked has its coarse label: the stripped and mapped label, with a star when it is discontinuous and splitprune is on, and with markorigin one such label with a number for each component. Then blocked labels are mapped to 0, labels mapped by component to a sentinel (and their components to the right labels, in order), others to that label; labels before startidx keep their mapping; every coarse label is mapped back to exactly the fine labels mapped to it, in order, after those it had; the mapping to the grammar's own labels and the one to the coarse grammar do not affect each other. Extending the mapping after labels were added to both grammars gives the mapping made from scratch. getrulemapping puts every fine rule in exactly one list, that of the coarse rule with its stripped labels and its yield function, in order, and fails iff a label is unknown; it does not change the coarse grammar when all coarse rules exist. Repeating getmapping duplicates the inverse mapping, a failure loses the previous mapping, the message compares with the components only, and a fine rule without coarse rule is filed under rule 0.", "quantifier": "all pairs of grammars, label functions, options and histories of extension", "why_tests_cant": "the result must be right for every label and rule of unboundedly large grammars, and after every extension", "anchors": ["discodop/_grammar.pxi:Grammar.getmapping", "discodop/_grammar.pxi:Grammar.getrulemapping"]}
{"id": "C98", "title": "The yield function of a binarized node composes its words from those of its children", "statement": "For two children with disjoint words, the yield function that getyf(left, right) writes as a string such as ';01,10', read from left to right (each 0 is the next maximal run of consecutive words of the left child, each 1 that of the right child, a comma separates the parts), gives exactly the maximal runs of consecutive words of the parent, and uses up all runs of both children. Without a right child it fails with an AttributeError unless the words are the first words of the sentence; then it is ';0'.", "quantifier": "all pairs of disjoint sets of words", "why_tests_cant": "unboundedly many and long discontinuous constituents", "anchors": ["discodop/treetransforms.py:getyf"]}
{"id": "C99", "title": "The reported fan-out of a treebank is that of its worst node", "statement": "treebankfanout(trees) returns (f, n) where f is the maximal number of maximal runs of consecutive words that a node of any tree covers, over all nodes, although only nodes with more than one child are inspected; tree number n has a node of that fan-out, and no later tree has a branching node of that fan-out.", "quantifier": "all non-empty treebanks of trees whose nodes have children", "why_tests_cant": "unboundedly many and large trees, with unary chains anywhere", "anchors": ["discodop/treetransforms.py:treebankfanout", "discodop/treetransforms.py:addbitsets", "discodop/runexp.py:getgrammars"]}
{"id": "C100", "title": "Two-terminal extraction compares exactly the pairs of trees that share two words", "statement": "With the twoterms option, extractfragments compares tree n with exactly those trees m in the requested slice (m > n within a single treebank) which contain the productions of two different words of tree n, one of them a content word; the index from productions to trees, also when it was extended after trees and productions were added, lists for each production exactly the trees that have it.", "quantifier": "all treebanks, slices, choices of content words, and ways of building the index in steps", "why_tests_cant": "unboundedly many trees, words and indexing steps", "anchors": ["discodop/_fragments.pyx:twoterminals", "discodop/_fragments.pyx:extractfragments", "discodop/containers.pyx:Ctrees.indextrees"]}
