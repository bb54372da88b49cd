# DESIGN

Formal model (Coq 8.16.1) of PolyhedraZK/ExpanderCompilerCollection (Rust source in /repo, mostly
`expander_compiler/src`). The code is modelled function by function as executable Gallina; each
definition cites file and lines.

## Conventions

* The field is a record `Fld` (carrier, operations, laws, canonical integer representative); theorems
  quantify over every such record. `Zp.v` builds an instance for every prime, and examples run on it.
* `usize` is `nat` (no wrap-around is modelled, except where a property is about it); `Vec` is `list`;
  `HashMap<usize,_>` is an association list (iteration order is one arbitrary order);
  `&mut` becomes a returned value; a panic / `unwrap` failure is `None`.
* Recursion through the sub-circuit table uses explicit fuel; theorems hold for every fuel or show
  that enough fuel exists.
* Hints and random values: the semantics of a circuit is a relation (some choice of hint/random
  values); an honest run picks the values of the built-in hints, an adversary picks any.

## Trusted base

* Coq 8.16.1's kernel (including `vm_compute` for the concrete examples), and the reading of the Rust
  code recorded in the comments of the model.
* Axioms: none. `Print Assumptions` under the property theorems (and run over every theorem named in
  MANIFEST.json) answers "Closed under the global context". `coqchk`-style listings of the loaded
  libraries also mention mathcomp/ssreflect's `ssrunder` constants; no theorem uses them.
* No functors, module types, plugins, `Admitted`, or kernel switches.

## What is modelled, and where

| Source (expander_compiler/src) | Model | Proofs | Property theorems |
|---|---|---|---|
| field arithmetic (crate `arith`) | Field.v (laws as a record), Zp.v (an instance for every prime) | | |
| circuit/ir/expr.rs | Expr.v | Expr.v | PropIr (C01) |
| utils/misc.rs (topological order, next power of two) | Topo.v | Topo.v | PropIr (C03) |
| hints/builtin.rs, hints/mod.rs | Hints.v | Hints.v | PropIr (C10, C11) |
| circuit/ir/common/mod.rs (circuit, validate, eval) | Ir.v | IrFacts.v, Sim.v | PropIr (C02, C39) |
| circuit/ir/{source,hint_normalized,hint_less,dest}/mod.rs (instructions) | IrInst.v | IrInst.v | |
| circuit/ir/common/opt.rs (remove_unreachable, reassign_duplicates) | RemoveUnreachable.v, ReassignDup.v | Bfs, VarMap, RevPass, LocalPass | PropPasses (C04, C05, C40) |
| circuit/ir/source/chains.rs (detect_chains) | DetectChains.v | VarMap, RevPass, LocalPass | PropChains (C06) |
| builder/basic.rs, builder/hint_normalize.rs | Builder.v | BuilderFacts, BuilderSim, HnTrans, HnSim, HnCirc | PropHn (C07-C09) |
| circuit/ir/hint_normalized (hint removal, witness solver), circuit/input_mapping.rs | HintExport.v, Solver.v, InputMapping.v, AddBack.v | same | PropSolver (C12, C13), PropUtils (C27) |
| builder/final_build_opt.rs | FinalBuild.v | FbFacts, FbSim | PropFb (C14) |
| circuit/ir/dest (mul fan-out, export_constraints, solve_duplicates) | MulFanout.v, ExportConstraints.v, SolveDuplicates.v | same | PropDest (C15-C17) |
| layering/ir_split.rs | IrSplit.v (model), SplitComb, SplitCut, SplitSegs, SplitSem, SplitExp, SplitRoot (facts), SplitTot* (totality), PropSplit, PropSplitTotal | memo tables are recomputed | C18, C43 |
| layering/{compile,layer_layout,wire}.rs | Layering.v | Lay*.v | PropLayering (C19), PropLayTotal (C42) |
| circuit/layered/mod.rs | Layered.v | LayeredFacts.v | PropLayered (C20, C26) |
| circuit/layered/opt.rs | LayeredOpt.v, LayeredCommon.v, LayeredExpand.v | LayeredOptFacts, LayeredOptSim, LayeredExpandAll | PropLayeredOpt (C21) |
| circuit/layered/{serde,export}.rs, utils/serde.rs, circuit/ir/*/serde.rs | Serde.v, Witness.v, Export.v | SerdeFacts.v | PropSerde (C22-C24), PropExport (C35) |
| utils/{heap,bucket_sort,union_find,pool,static_hash_map}.rs | Heap.v, Sorting.v, UnionFind.v, Containers.v | same | PropUtils (C28-C32) |
| frontend/{api,builder,debug}.rs | ApiSpec.v (specification), Frontend.v | ApiFacts, FrontFacts, FrontSim, DebugFacts, FrontProg | PropFront (C33, C34) |
| zkcuda/shape.rs | Shapes.v | ShapeFacts.v | PropShapes (C38, C41) |
| compile/mod.rs (loops) | FixedPoint.v | FixedPoint.v, Terminate.v | PropSolver, PropTerminate (C40) |
| compile/mod.rs (steps, errors told from panics) | CompileR.v | CompTotal.v, CompTotalB-D.v | PropCompTotal (C44) |
| circuit-std-rs: how a library circuit makes calls | Gadget.v (calls a gadget makes; its meaning by ApiSpec.v) | GadgetRec.v (recording) | |
| circuit-std-rs sha256/gf2.rs, gf2_utils.rs | ShaGf2.v; specification ShaSpec.v (FIPS 180-4, checked on its test vectors) | ShaGf2Facts.v, ShaGf2Sem.v | PropSha (C45) |
| circuit-std-rs sha256/m31.rs, m31_utils.rs (the functions SHA-256 uses) | ShaM31.v; specification ShaSpec.v | ShaM31Facts.v, ShaM31Sem.v, ShaM31Comp.v | PropSha31 (C46) |
| circuit-std-rs logup.rs (LogUpCircuit, LogUpSingleKeyTable, LogUpRangeProofTable) | LogUp.v | LogUpFacts.v, LogUpPoly.v, LogUpRange.v | PropLogUp, PropLogUpRange (C47) |

Not modelled: zkcuda kernels/proving, the Go bindings, the prover itself, `Config` values other than
through parameters, parallelism, wall-clock and randomness sources, `#[derive]`d code, logging,
statistics, the proc macros of circuit-std.

## Simplifications (each also stated at the definition)

* Byte layouts of the field primitives (crate `serdes`/`arith`) are assumed to round-trip and have a
  fixed length; the prover format's meaning (crates outside the repository) is the one stated in Export.
* SIMD field elements are vectors of lanes with lane-wise operations; pack/unpack is the identity on them.
* `usize` does not overflow. The order of a HashMap/HashSet iteration is the insertion order of the list,
  unless a theorem quantifies over it.
* IR: custom gates have one output; a panic inside `validate` is "not validated".
* remove_unreachable / expr id queues: NewIdQueue is replaced by consecutive ids.
* solve_duplicates: the HashSet of constraints is processed in list order.
* find_common_parts: the sampled edges are arbitrary (any sample); the step-3 loop may stop after any round.
* Builder/FinalBuild: the k-way heap merge is a sort; the min-heap of variables is a sorted list; field
  order is that of the canonical representatives; an out-of-range layer index reads 0; a ghost log of
  definitions is carried for the proofs and never read by the functions.
* Layering: layouts hold values instead of ids into pools; sub-circuit calls are named by position (see
  the header of Layering.v).
* Shapes: element counts are unbounded naturals.
* Frontend: variables are named by the position of the call that returned them ("handles"); a closure is
  a type and captured values; its hash is a parameter; random draws of the debug builder are counted.

## Behaviour that differs from the English property (proved as `_refuted`)

* C04: removing an unreachable instruction removes its implicit check (division by zero, boolean operands).
* C08/C09: `ToBinary` with 2^n above the modulus is not unique; marking a variable boolean cancels an
  assertion on it; an unchecked division leaves 0/0 unconstrained.
* C12/C16: a circuit that calls circuit 0 gives an invalid export.
* C17 (and C15): `ConstantLike Random` instructions are copied, so two draws replace one.
* C20: layered `validate` ignores output counts. C21: a duplicated public-input gate is lost by
  find_common_parts; expand_small_segments with an unplaced child. C35: custom gate inputs are dropped.
* C32: the static hash table's constructor may loop. C38: transposing an empty tensor panics.
* C33: a closure that captures values is recorded once; gt/geq panic on other field sizes.

## Plan per property

* **C01** Canonical expressions keep their value. Expr.v: VarSpec/Term/Expression and from_terms as executable functions over an abstract field record; evaluation is the spec; induction on the sort/compress.
* **C02** Validated circuits never read an undefined variable. Ir.v: generic circuit, validate as a boolean function, evaluator returning option on any failed lookup; theorem: validate=true -> evaluation at fuel #circuits never fails for lookup/arity/fuel reasons.
* **C03** Acyclicity check is exact. Topo.v: Kahn's algorithm as executable function; spec: no cycle path. Both directions by invariants.
* **C04** Removing unreachable code preserves behaviour. RemoveUnreachable.v: element graph + closure + rebuild; relational semantics; proof by induction on fuel and instruction list with the 'visited set is closed' invariant.
* **C05** Reassigning duplicate outputs preserves behaviour. ReassignDup.v: executable rewriting; simulation.
* **C06** Chain detection preserves behaviour. DetectChains.v: executable detect_chains; simulation under reference counts.
* **C07** Hint normalisation is complete. Builder.v: builder state machine; forward simulation with built-in hints.
* **C08** Hint normalisation is sound. Builder.v/HnSim.v: backward simulation against adversarial hints; false parts proved as _refuted theorems.
* **C09** Marking a value as boolean never drops a check. Builder.v: if the code violates it, a _refuted theorem with a concrete program.
* **C10** to_binary is exact on honest runs. Hints.v: to_binary over Z; uniqueness of binary representation.
* **C11** Built-in hints compute the documented function. Hints.v: each hint as function on field/Z; closed-form specs.
* **C12** Hint removal and hint export agree. HintExport.v: executable remove/export; simulation by induction on fuel.
* **C13** Witness solver restores removed inputs. Solver.v, AddBack.v, InputMapping.v.
* **C14** Final build preserves behaviour. FinalBuild.v: builder state machine; FbSim.v: simulation.
* **C15** Fan-out limiting preserves behaviour and meets the limit. MulFanout.v: executable; simulation plus counting invariant.
* **C16** Exported constraints are the leading zero outputs. ExportConstraints.v.
* **C17** Solving duplicates preserves behaviour. SolveDuplicates.v.
* **C18** Layer splitting preserves behaviour. IrSplit.v models ir_split.rs. SplitComb.v: the random sums of the checks of each layer.
  SplitCut.v, SplitSegs.v, SplitSem.v: the segments of a circuit, called one after another, compute what the circuit computes. SplitExp.v:
  replacing calls by calls of segments. SplitRoot.v: the pool of new circuits and the root. Two hypotheses are needed and shown necessary:
  with random combination some constraint must be reachable, and no circuit may have as many constraints as the characteristic.
* **C19** Layering preserves behaviour. Layering.v models compile.rs, layer_layout.rs, wire.rs, input.rs. LaySched.v: the
  computed layers keep the promises `ctx_ok`. LaySem.v: those promises make the layer-by-layer meaning of a circuit (`LS`) equal to running it.
  LayLayout.v: layouts never overlap. LayInst.v: connecting wires builds exactly the gates of every instance. LayOwn.v, LayView.v: by
  induction on nesting, values of slots that satisfy the gates are layer-by-layer runs and back. LayRoot.v: the whole circuit.
  Both directions are proved: every layered run is a dest run that it accepts whenever the constraints hold; every dest run is a
  layered run, accepted when the constraints hold, rejected for some coefficients when one fails. Absence of panics is not claimed.
* **C20** Validated layered circuits evaluate in bounds. Layered.v: validate boolean, eval returning option; safety theorem.
* **C21** Layered optimisations preserve behaviour. LayeredOpt.v.
* **C22** Layered circuit serialisation round-trips. Serde.v: byte-level codec combinators; SerdeFacts.v.
* **C23** IR serialisation round-trips. Serde.v; SerdeFacts.v.
* **C24** Witness serialisation round-trips. Witness.v.
* **C25** SIMD packing is lossless. Witness.v.
* **C26** SIMD evaluation is lane-wise. LayeredFacts.v: lanes as lists, map-projection commutes with evaluation.
* **C27** Input mapping composition. InputMapping.v.
* **C28** Heap always pops a minimum. Heap.v: array heap on lists; invariant + multiset.
* **C29** Bucket sort is a stable sort. Sorting.v.
* **C30** Union-find maintains exactly the merged partition. UnionFind.v: operation histories vs. equivalence closure.
* **C31** Interning pool is a bijection. Containers.v.
* **C32** Static hash map finds exactly its keys. Containers.v.
* **C33** Circuit builder records what the API promises. ApiSpec.v: meaning of a program; Frontend.v: builder recording; FrontSim.v: the recorded circuit's runs are the program's runs, by induction on statements with an invariant on known constants; FrontProg.v: recording does not panic.
* **C34** Debug evaluator agrees with the recorded circuit. Frontend.v: debug evaluator; DebugFacts.v; agreement through the common specification.
* **C35** Export to the prover format preserves behaviour. Export.v.
* **C36** End-to-end completeness. Compile.v models compile_with_options (a relation: step 3 samples); E2E*.v compose the pass theorems stage by stage; PropCompile.v states the result for the solver circuit and the layered circuit. Kinds of instructions are followed from the source (E2EKinds.v); Settled.v: after split_to_single_layer no circuit calls anything after its first draw. LayFit.v: every circuit the layering pass builds meets what the level 3 optimisations need (children placed, gates with public coefficients distinct); LayeredOptFacts.v keeps a Mode parameter saying whether equal gates with random coefficients have to be kept apart (any set of coins) or may be merged (every coin possible).
* **C37** End-to-end soundness. Same composition read backwards (E2EFinal.v: backward), with hints chosen by an adversary ([adv]).
* **C38** Tensor padding, reshape and transpose. Shapes.v.
* **C39** Constraint propagation through sub-circuits. Ir.v: the evaluator's verdict against an inductively defined set of executed constraints.
* **C40** Optimisation loop terminates at a fixed point. FixedPoint.v: the loop with fuel; exit condition and composition. Terminate.v, PropTerminate.v: the loops end. Measure: circuits + inputs + instructions with their inputs and outputs + outputs, over the table; remove_unreachable never increases it and returns an equal circuit if it does not decrease it; detect_chains likewise; reassign_duplicates may increase it, but after the first round no second copy of an output is read (neat), so that from then on remove_unreachable leaves distinct outputs and reassign_duplicates changes nothing.
* **C41** (see properties.jsonl) Shapes.v.
* **C42** Layering never panics. LayTotA.v: computing the layers of one circuit; LayTotB.v: all circuits, the layer contexts and the placement groups (pl_ok); LayBlock.v: the block around a set of positions holds them, so a query never writes outside it; LayMerge.v, LayGroups.v: merging layouts keeps every variable exactly once; LaySolve.v: every layout holds every variable of its layer once and a part for each call running in it (okl), by induction on the nesting; LayConn.v: hence every wire a gate reads has a slot. PropLayTotal.v also shows the condition on inputs is needed.
* **C43** Layer splitting never panics. SplitTot.v: the layers of a circuit exist and are what a segment needs; SplitTotB.v: every split point asked for is one of the circuit's; SplitTotC.v: reassembling a circuit from its segments finds every variable in the layer it expects; SplitTotD.v: all circuits, by induction on the nesting. C43_constrained shows the condition on constraints is needed.
* **C44** The compiler never panics. CompileR.v: the steps of Compile.v with errors (`?`) told from panics, proved to have the same values; CompTotal.v: fan-out limiting keeps outputs distinct (needed by solve_duplicates); CompTotalB/C/D.v: each step, for enough rounds of its loops, returns or reports an error, from the totality of every pass (C05-C18, C40, C42, C43) and what the passes before leave; PropCompTotal.v: the whole pipeline. What remains is `too_large`: a mapping that does not fit in usize. Step 3's loop may in principle run for ever: only that none of its rounds fails is proved.
* **C45** SHA-256 over GF(2). A gadget is a function from the number of handles to the calls it makes (Gadget.v), so a circuit using it is a
  program of ApiSpec.v, to which C33 applies. Each function of gf2_utils.rs is shown to compute its function on 32-bit integers (bits by
  testbit, adders by induction over blocks; the Brent-Kung block by its 512 cases), then schedule, rounds, blocks and padding. ShaSpec.v defines K
  and H0 from roots of primes, so the transcribed constants are checked too. Refuted for the lengths at which finalize underflows.
  Simplification: arrays of handles are lists; stale entries of sum_all's vector are dropped.
* **C46** SHA-256 over a prime field. As C45, with two forms of a word (32 bits, least significant first; a pair of 26 and 6 bits with overflow
  bounds) related to integers by predicates; the bounds on the field elements, not modular identities, are what is proved through the rounds:
  every sum stays below 2^30, so the field's modulus only has to exceed that. `C46_bytes` ties the bytes to the bits of FIPS 180-4, `C46_only_bytes`
  says that values that are not bytes leave no run, `C46_batch_outputs` gives the batch function in general and `C46_batch_refuted` a batch
  whose second output is not the digest. In the `_compress` functions the inputs are assumed to be bits; nothing is claimed for others.
* **C47** Lookup arguments. LogUp.v: the circuits of logup.rs as gadgets (Gadget.v) over the API programs of ApiSpec.v; LogUpFacts.v characterises
  the runs of a gadget by its choices (random elements, answers of hints) and evaluates sums of fractions, which the code adds in a tree; LogUpPoly.v:
  the two sides, denominators cleared, are polynomials in alpha whose difference does not vanish at a query that is no row (poles), so it has at most
  rows + queries roots, and some random coefficients keep a query apart from finitely many rows. The claim is soundness for all randomness
  (C47_sound) and a count of accepting points (C47_few); a probability over the coefficients is not stated. Counts and hint answers are fixed before
  the randomness (in the code the hint is not given it). Simplifications: in the soundness theorems a hint is any hint; C47_single_hint_complete takes the registered one (keys distinct in 32 bits); `usize`/`u128` shifts do not overflow.
  Range proofs: LogUpRange.v models the two registered hints and characterises the runs of rangeproof by the hint's answers; PropLogUpRange.v adds
  the base 2^bits arithmetic. What the code checks is shifted_in_range; C47_range_meaning says which values that is, C47_range_refuted is a proof of
  12 bits that accepts -1. The hints' answers may be anything in C47_range_sound. n < 128 (1u128 << 128 overflows), n > 0.
