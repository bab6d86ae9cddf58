#!/usr/bin/env python3
"""Writes DESIGN.md: fixed text from this file, tables from properties.jsonl, MANIFEST.json and the .v files."""
import json,glob,os,re
HOW={'C114':'Walks retract onto a part, so the filtration of a part is the restriction of the whole; a shortcut between the parts is the third side of a directed triangle through v, so cycles split up to boundaries; collapsing the other part to v is a chain map on boundary-invariant 2-paths, so boundaries split too; dimensions add; uniqueness of bars. Components: adding the edges of the second part one at a time.','C113':'Before g the Betti numbers of the union are the sums (C108); from g on there is one component (C72); uniqueness of bars. Example: the two squares of C108.','C112':"C57 characterises both results by the Betti numbers of the same filtration and C55's uniqueness of bars gives equal multisets; shortest lengths are unchanged because each walk through a replaced edge is matched by one along the kept edges. Example: a chord of weight 9 or infinity over a path of length 3, and its removal, which changes the bars.",'C111':'C92 with an exact comparison relation between the two arithmetics. On doubles rounding commutes with multiplication by 2^k: sums in the normal range by shifting exponents, sums in the subnormal range because they are exact; walks without repeated vertices are transported edge by edge. Examples: weights 0.1, 0.2, 1.0 doubled, and integers tripled.','C110':'Reversing chains (e(x,y) to e(y,x), u(a,b,c) to u(c,b,a)) maps invariant 2-paths, cycles and boundaries of one filtration to those of the other (Reversal.v); shortest walks reverse; C57 and the uniqueness of bars from the Betti numbers finish. On doubles both runs are compared with the exact real diagram by C99 and C94. Example: a digraph with a source which is not isomorphic to its reversal.','C109':'The words are unfolded to residues modulo 2^64; reduce is analysed by the size of the gcd (below, equal to, above 2^63). Examples: (2^32)^2 is stored as 0/1 and (1/2^32)^2 as 1/0, after which an addition divides by zero.','C108':'Below g no simplex meets both groups, so the complex cut off at t < g is isomorphic, by renumbering vertices, to the direct sum of those of the groups; persistent Betti numbers add over direct sums, and bars cut at g are determined by the numbers of bars alive from s to t for s <= t < g (ClusterBetti.v, RipsClusters.v). With C54 and C64 this is a statement about the runs.','C107':"A decomposition R = DV over the small field is mapped by the embedding to one over the large field with the same leading rows; by C25 any decomposition determines the intrinsic pairs, to which C25, C26, C32 and C44 relate the programs' diagrams. Example with the field of four elements.",'C106':'First half: both multisets are the edges of a minimum spanning tree (C101). Second half: the two runs of the model computed by the kernel.','C105':'Pairs are intrinsic (C44) for any order of the basis that sorts each dimension; choose an order of the larger reversed basis that starts with the smaller one, and show that the intrinsic pairing only depends on the basis up to the column. Then the lines printed as images of the pairs.','C104':'Cycles, boundaries and allowed 2-paths split along the vertex partition because no walk crosses it (DisjointPaths.v); generic lemma that persistent Betti numbers of a split are sums (SplitBetti.v); vertices without edges change no chain; then uniqueness of bars from Betti numbers (BarsUnique.v) and component counts (C58) in dimension 0.','C103':"Model of petgraph's dijkstra over raw doubles (IEEE comparisons, MinScored's treatment of NaN, the filter t < INFINITY, NotNan::new(..).unwrap()); simulation between the raw run and the run over NotNan weights: scores start at +0.0 and sums of proper doubles with finite weights are never NaN or -0.0, so raw scores are exactly the doubles inside the NotNan scores. Then C99.",'C102':"C44's partition of the simplices into births, deaths and the essential vertex is a permutation of the list of simplices; the counts follow by filtering it. A pair cancels in the alternating sum unless t separates its birth and death.",'C101':"Components are counted by C72; SpanTree.v proves that one edge joins at most two components (so any connected graph has at least as many edges above each level as there are components to join) and that Kruskal's tree has exactly the components of every level. Equal counts above every level give equal multisets.",'C100':"RipsCone.v builds the chain homotopy that cones every simplex to the apex (after reordering the points so the apex is last), so persistent Betti numbers past r vanish in degree >= 1 and are 1 in degree 0 (by the component count of C72); counting bars (C54) then forbids a bar crossing r. The capped matrix is the image under a weakly monotone map, so C89's transport of bars applies.",'C99':'C93 with C97 for IEEE addition.  `C99_grpph_dijkstra`.','C98':'A weaker invariant that never compares lengths.  `C98_any_weights`.','C97':"petgraph 0.6.5's loop is modelled with its score map, visited set and queue (stale entries included); the invariant is that visited vertices carry shortest lengths and that the scores of the others are queued; the queue length plus the number of edges leaving unvisited vertices bounds the steps.  `C97_dijkstra`; `C97_std_queue` (the array heap of C83 with petgraph's reversed order is such a queue).",'C96':"C90 with doubles read as integers times 2^-1074 (all doubles are such multiples) and delta rounded down to such a multiple; the cut is C95's.  `C96_rips_program_stability`.",'C95':'C73 for the IEEE instance, with 0.01 the nearest double and monotonicity of rounding on both sides of it.  `C95_rips_program_doubles`.','C94':'Sums of at most n-1 such weights are representable, hence every addition is exact; then as C93 with error factor 1.  `C94_exact_doubles`.','C93':"Flocq's relative error bound for IEEE addition (no underflow error) along walks without repeated vertices; no overflow because such walks have fewer than 65536 edges; then C92 against the run over the reals, whose bars C57 identifies with the exact filtration.  `C93_double_grpph`.",'C92':'As C91, for two ordered types: for every level of one filtration a level of the other is built that bounds the counterparts of all shorter walks (finitely many pairs of vertices), C69 interleaves the counting functions, and counts_match2 matches by maxima.  `C92_two_arithmetics`.','C91':'C69 in both directions interleaves the counting functions of the deaths; births are all zero (C58) and the numbers agree at time zero because no walk between distinct vertices has length zero; two lists with interleaved counting functions are matched by repeatedly taking the maxima (counts_match).  `C91_grpph_stability`, `C91_scaled_weights`.','C90':"both diagrams of two tables without inverted distances are images of one diagram over pairs of values (C89's lemma for the two projections); raising each distance by unit steps to the maximum of the two tables gives a path of such steps, whose matchings compose (Matching.v); correspondences are reduced to tables of equal size by C87's covers.  `C90_bottleneck_stability`, `C90_program_bottleneck`.  Specification in SpecBottleneck.v.",'C89':'bars of positive length are determined by the persistent Betti numbers (BarsUnique), and the sublevel complexes of g(d) are sublevel complexes of d: the largest entry whose image is at most s serves as threshold (RipsBars.mono_bars).  `C89_monotone_distances`.','C88':'both sides pulled back to the list of related pairs (C87), then the interleaving of C69.','C87':'chain maps between the complexes with and without the last vertex repeated, homotopic to the identity (BettiFactor.v, RipsRepeat.v); induction on the number of repetitions (RipsCover.v); bars determined by the ranks (C68).','C86':'CachedReduce.v: with the invariant of C30-C33, a column used for reducing is never a cleared one, so all its cells are cached; the log of computed columns is tracked exactly; the cleared column of R contains the cleared cell itself, which is never cached, under an open iterator','C85':'the reduction threaded through the cache state (CachedRun.v) is simulated against the model of standard.rs; the invariant of C22-C26 shows that every column of V only involves cells whose column is already cached','C84':'CachedRun.v models iterators over the cache as they are consumed (the outer one stays open while the inner columns are requested); CachedFacts.v proves the exact outcome for every cache state reachable by a client history','C83':'StdHeap.v models the heap as an array with a hole and proves the heap order and the multiset through sift_up and sink (holed invariant); it is an instance of heaps and of uniform, so C81 applies with no abstract heap','C82':'the simulation of MachineRef.v twice: from checked arithmetic to either build profile (an operation that does not overflow does the same in both) and from checked arithmetic to the canonical rationals (exactness as in C05); the wrong release run is computed','C81':'Machine.v models the columns, products and both reductions over coefficient operations that may panic; MachineRef.v proves a simulation along any map of coefficients commuting with the operations (heaps carried along by relabelling); MachineSim.v shows that over a field the machine model is the model of C25/C32; ZP on u8 refines ZP_coeff by C02','C80':'the columns before the first edge with an unknown vertex reduce as in C32 on the in-range part of the digraph (total_fold on a truncated block); that column then panics, since neither a pivot nor a clearing entry can be an unknown edge; known vertices: C50/C51 on the truncated edge list','C79':'both runs satisfy the C78 invariant for their own matrix; the table is the same after every step because the reduction loop only depends on the dense columns (gen_loop_sim) and the drained V column is sorted, hence determined by its dense content','C78':'o_build (ClearingOrder.v): loop invariant over the blocks visited so far that does not assume that a Cleared marker is written before the column is met; graded_blocks (SpecMat.v) is the contract without any order of the dimensions.','C77':'build_total (ClearingTotal.v): the loop invariants of the clearing proofs restated without the order of the columns.','C76':'rips_cli models main.rs 18-43; reading is characterised by `describes` and `asks_for` of SpecInput.v; returning by the order-free run of C77 on the Rips blocks (wide_shape); panicking by following the missing entry through the basis enumeration (bases_need: every step either panics or leaves the vertex stack unchanged).','C75':'uval_order: the times of simplices are ordered alike; then same_run as in C74.','C74':"C37's description of the recorded times and of the diameters compared entry by entry; same_run (the diagram is intrinsic, so order-equivalent filtrations give the same pairs); the refutation by evaluation.",'C73':'circle_betti1 computes the persistent Betti numbers of degree 1 (arcs are homologous to sums of unit steps; the cycle of all unit steps bounds once a triangle of side ceil(n/3) exists, and before that its winding number, counted on the long edges, is not zero); components_betti gives degree 0; bars_determined (a barcode is determined by the alive counts) turns this into the printed list','C72':"From any labelling of the components, the classes of one vertex per label form a persistent basis of H_0 in the sense of SpecPH (spanning: along a path consecutive vertices differ by an edge's boundary; independence: the total coefficient on a component vanishes on boundaries); C54_rips_bars_count then identifies its size with the number of bars alive. labels_exist shows that labellings exist.",'C71':"From C44_diagram_shape each simplex of dimension k <= max_dim is the base vertex, the birth of exactly one pair or the death of exactly one pair, so the cells of dimension k are a permutation of the births of dimension k and the deaths of dimension k; induction on k and Pascal's rule give the counts.",'C70':"The boundary matrix is shown to be a block complex over the dimensions in decreasing order and to equal the specification's simplicial boundary on every simplex of the skeleton; C32, C52 and C53 then give agreement and the Betti numbers, and chains of degree q and q+1 only see simplices of those degrees, so for q < max_dim the larger complex has the same Betti numbers.",'C69':'rank of a map factoring through another (kernel of a wide matrix); cycles of a shortest-path filtration are homologous to cycles of given edges','C68':'an adjacent transposition acts on chains as a signed permutation (RipsSwap, BettiMaps); every permutation is a product of them; bars_determined',
'C01':'finite case analysis; `field_theory` of the operations lifted to `option`',
'C02':'the operations on residues are related to `Z` modulo P for all pairs of residues; primality by computation on the modulus',
'C03':'the inverse loop is characterised for every modulus: panics iff no inverse exists or P is out of range',
'C04':'machine Q refines stdlib `Qc` whenever intermediate products are in range',
'C05':'exact description under overflow checks; a concrete input at 2^63 refutes the unrestricted claim',
'C06':'denotation of a heap = coefficient sum; induction on the number of entries',
'C07':'iterated C06; canonical form unique by leading terms',
'C08':'pivot is pushed back, denotation unchanged',
'C09':'invariant over arbitrary histories of calls; two histories with equal sums are observationally equal',
'C10':'order derived from filtration then row; coherence hypothesis stated and shown necessary',
'C11':'sum over the inner column; filtration and basis forwarded; panics characterised',
'C12':'concatenation of columns = sum of coefficients',
'C13':'consolidation = canonical form of the column','C14':'equality of canonical forms','C15':'order reversal, both composites identity, bases reversed, splits swap; panics out of range',
'C16':'function-by-function unfolding of the adaptor model','C17':'coherence preserved by each adaptor, `with_filtration` establishes it',
'C18':'state machine with cache and live borrows; invariant over histories','C19':'reachable history that panics; exact condition',
'C20':'index table induction','C21':'unfolding + lookup lemmas',
'C22':'pivot strictly decreases in a well-founded order on the basis; fuel bound exhibited','C23':'loop invariant on V','C24':'loop invariant den r = D (den v), pivots distinct',
'C25':'rank-free uniqueness of pairs via leading terms of combinations','C26':'traversal invariant','C27':'zero columns and pivots partition when D D = 0','C28':'exact description of the wrong run','C29':'two runs in lock-step on equal denotations',
'C30':'as C22 per dimension, with cleared columns','C31':'invariant over dimensions','C32':'pairs are the intrinsic ones, C25','C33':'boundary of a column is zero iff every coefficient cancels',
'C34':'certificates: a chain and a cochain witnessing the same pair','C35':'place-value digits','C36':'digits beyond the machine word; both build profiles','C37':'enumeration induction, sorting','C38':'exact condition for returning','C39':'concatenation of bases',
'C40':'alternating faces, d d = 0 by pairing of terms','C41':'adjoint of C40','C42':'diameter monotone','C43':'built matrices go through the default; the override is characterised',
'C44':'contract of clearing for the reversed coboundary + C34 + C39','C45':'fold invariant over bridge candidates','C46':'every generator enumerated once per edge with its coefficient','C47':'times of generators are maxima of path times',
'C48':'boundary of generators cancels; listings exist','C49':'sorting + disjointness','C50':'contract of clearing for GrPPH + duality; truncation and overflow refutations','C51':'dropping positive columns leaves other pairs unchanged',
'C52':'cycles with the right leading cells form a basis at all pairs of times; dimension unique','C53':'same, for clearing','C54':'C44 + C52 + duality on all simplices','C55':'elimination of 2-paths by primary bridges; independence by private paths','C56':'C55 + C52',
'C57':'shortest-path contract gives a filtered digraph; C56','C58':'shortest walks are homologous to their edges: surjectivity and stability of Betti numbers; arithmetic on bar counts','C59':'spanning-forest induction over the edge list','C60':'cone from the root: every edge is homologous to spokes',
'C61':'involution columns have the right leading edges; C52','C62':'C61 at time z, where only given edges exist','C63':'C59 + C60 + C62; a cycle on the directed cycle is constant','C64':'C44 + C54 per printed line; Pascal enumeration of simplices','C65':'same run as C63; per-dimension lists are a permutation of the printed list','C66':'distances on the cycle; filling by two paths at the death time, winding-number cocycle before it','C67':'Betti numbers are transported along the renaming; numbers of bars alive determine the bars of positive length (BarsUnique)',
}
EXTRA=json.load(open('/verif/design_extra.json')) if os.path.exists('/verif/design_extra.json') else {}
HOW.update(EXTRA)
m={c['property']:c for c in json.load(open('/verif/MANIFEST.json'))['claims']}
props=[json.loads(l) for l in open('/verif/properties.jsonl')]
where={}
pa=set()
for f in sorted(glob.glob('/verif/rocq/theories/*.v')):
    s=open(f).read()
    for x in re.finditer(r'^ *(?:Theorem|Corollary)\s+(C\d+_\w+)',s,re.M): where[x.group(1)]=os.path.basename(f)
    for x in re.finditer(r'^Print Assumptions (?:Verif\.\w+\.)?(\w+)\.$',s,re.M): pa.add(x.group(1))
out=[open('/verif/design_head.md').read()]
out.append('## Files (rocq/theories)\n\n| file | contents |\n|---|---|')
for l in open('/verif/rocq/_CoqProject'):
    l=l.strip()
    if l.endswith('.v'):
        s=open('/verif/rocq/'+l).read(); c=re.match(r'\(\*\*\s*(.*?)(?:\*\)|\n\n)',s,re.S).group(1)
        c=re.sub(r'\s+',' ',c).strip(); c=c.split('. ')[0].rstrip('.')
        out.append(f'| `{os.path.basename(l)}` | {c} |')
out.append('\n## Properties\n\nEvery property is expressed in the model. `file`: where the theorems are stated.\n\n| id | title | theorems | file | proof |\n|---|---|---|---|---|')
miss=[]
for p in props:
    c=m.get(p['id'])
    ths=c['theorems'] if c else []
    fs=sorted({where.get(t,'?') for t in ths})
    if p['id'] not in HOW: miss.append(p['id'])
    out.append(f"| {p['id']} | {p['title']} | {', '.join('`'+t+'`' for t in ths)} | {', '.join(fs)} | {HOW.get(p['id'],'')} |")
out.append('\n## Print Assumptions\n\n`Print Assumptions` is run in `Assumptions.v` on the following theorems and answers "Closed under the global context" (no axioms) for each, except for `C93_double_grpph`, `C94_exact_doubles`, `C95_rips_program_doubles`, `C96_rips_program_stability`, `C99_grpph_dijkstra`, `C103_raw_doubles`, `C103_raw_bars`, `C110_reversal_doubles`, `C110_reversal_exact_doubles`, `C111_double_units`, `C112_parallel_doubles`, `C114_doubles`, where it lists `ClassicalDedekindReals.sig_forall_dec`, `ClassicalDedekindReals.sig_not_dec`, `FunctionalExtensionality.functional_extensionality_dep` and `Classical_Prop.classic`, and for `C101_least_total_length`, where it lists the first and the third of these:\n')
out.append(', '.join('`'+t+'`' for t in sorted(pa) if t in where)+'.')
nopa=[t for c in m.values() for t in c['theorems'] if t not in pa]
if nopa: print('no Print Assumptions:',nopa)
if miss: print('no HOW:',miss)
open('/verif/DESIGN.md','w').write('\n'.join(out)+'\n')
