# svgcleaner: a Rocq model and its theorems

The code under study is /repo (svgcleaner, Rust). The model is in `rocq/theories`. Kinds of files:

- model files (definitions, every definition cites /repo file:lines and says where it simplifies; table below);
- specification files (`Spec*.v`): small independent definitions in which the theorems are stated. They do not mention the
  functions of the model (exceptions: `SpecClean` is about the passes themselves, and accessors of documents from `Dom.v` are shared);
- proof files;
- `Props_*.v`: the property theorems `Cxx_*`, each with an `Example` that shows that a concrete case meets the hypotheses, and
  `Cxx_*_refuted` theorems: concrete documents for which the claim in its full generality is false of the code.

A suffix `_partial` marks a theorem that covers less than the English property; `MANIFEST.json` says what is missing.

## Modelling decisions

- **Document.** svgdom's mutable node graph is a rose tree. Every node carries a unique natural-number key (the
  identity of the `Rc` node), a tag (root, svg element, foreign element, text, comment, ...), an id string and an
  ordered attribute list. An attribute has a name, a value and a visibility flag. Links are values holding the key of the
  target. `linked_nodes()` is a scan of the document for attributes holding the key (svgdom keeps this list
  incrementally; that it equals the scan is part of the svgdom contract below).
- **Saved document.** The writer leaves hidden attributes out (`write_hidden_attributes: false`); `SpecWritten.written` removes
  them. `get_value`/`has_attribute` see hidden attributes, as in svgdom.
- **Mutation.** A function that mutates through `&mut` returns the new value. A task is a fold over a snapshot of nodes where the
  Rust code iterates over nodes, or recursion with fuel where it loops. The result type is `result` = `Ok | Err e | Panic`; a
  function whose loop may not end returns `option (result _)`, with `None` = fuel exhausted, and the fuel is shown to be enough
  whenever the loop of the code ends (C47, and the termination parts of C14, C16, C21, C23, C26, C34, C38, C42).
- **Errors.** `Result` is data; `unwrap` on `None`, `unreachable!`, index errors are explicit `Panic` values, and so are the three
  errors of svgdom's `set_attribute` for links (`ElementMustHaveAnId`, link to itself, `ElementCrosslink`), because the
  methods used by svgcleaner unwrap them (`Links.v`).
- **Numbers.** `f64` is modelled by exact rationals (`Qc`). Consequently `FuzzyEq` (ulps comparison) is modelled by exact
  equality, and floating point rounding error is not modelled. This is the main numeric simplification. NaN and infinity occur in one place
  (`is_point_on_line`) and are treated there. `Transform::has_proportional_scale`, `get_scale`, `get_skew` (square roots, atan) are replaced by the
  closed form of "no skew, equal positive scales": b = c = 0, a = d > 0.
- **Painting.** C26, C27, C29 are stated in `SpecPaint.v`: the picture of a document is the list of its painted leaves in order, each with the
  chain of transforms, group effects (opacity, clip-path, mask, filter, display) and the computed inheritable properties. C28 has its own definition of
  what is visible (`SpecVisible.v`).

## What is modelled

| code | model | properties |
|---|---|---|
| src/main.rs `main` (file system, parser, writer are oracles) | MainProg | C01-C03 |
| src/cli.rs, src/options.rs | Cli | C04-C06, C48 |
| src/cleaner.rs `clean_doc` | Clean | C08, C12, C44, C45, C47, C49, C50, C51 |
| src/task/preclean_checks.rs, rm_elems.rs, rm_unref_ids.rs, trim_ids.rs, final_fixes.rs, rm_version.rs, rm_default_transform.rs, ungroup_defs.rs | TasksSimple, IdNum | C07, C09-C12, C43, C46 |
| src/task/resolve_gradients.rs | Gradients, Stops | C16, C17 |
| src/task/resolve_inherit.rs | Inherit | C15 |
| src/task/fix_attrs.rs | Shapes | C18 |
| src/task/group_defs.rs | GroupDefs | C13 |
| src/task/round_numbers.rs | Round | C19 |
| src/task/rm_unused_defs.rs | RmUnusedDefs | C14 |
| src/task/rm_invalid_stops.rs | Stops | C20 |
| src/task/apply_transforms/*.rs | Transforms | C24, C25 |
| src/task/rm_dupl_defs/*.rs | Dupl | C21, C22 |
| src/task/merge_gradients.rs | MergeGradients | C23 |
| src/task/ungroup_groups.rs | Ungroup | C26 |
| src/task/conv_shapes.rs | Shapes | C36 |
| src/task/paths/*.rs | Paths, Transforms (`process_paths`) | C37-C41 |
| src/task/rm_invisible_elems.rs | RmInvisible | C28, C52 |
| src/task/regroup_gradient_stops.rs | Regroup | C42 |
| src/task/resolve_use.rs | ResolveUse | C29 |
| src/task/rm_default_attrs.rs | RmDefault | C30 |
| src/task/rm_text_attrs.rs | RmText | C31, C52 |
| src/task/rm_needless_attrs.rs | Needless | C32, C52 |
| src/task/rm_gradient_attrs.rs | GradUnits | C34 |
| src/task/rm_unused_coords.rs | UnusedCoords | C33 |
| src/task/group_by_style.rs | GroupStyle | C27 |
| src/task/join_style_attrs.rs | JoinStyle | C35 |
| src/task/utils.rs, macros.rs | inside the above | |

Not modelled: the parser and the writer of svgdom (the theorems about `main` hold for every parser and writer; the theorems about
documents start with a parsed document and end with the document that is handed to the writer); messages on stderr, the ratio printed by `main`, the
logger (`src/main.rs`), the texts of `src/error.rs`; the flags of the writer (`gen_write_options` is modelled, what the writer does with them is not); floating point rounding;
the time and memory the program needs; IO errors other than "cannot load", "cannot copy", "cannot save".

## Plan per property

- **C01** (Output is never bigger than the input unless allowed). Model `main` as a function of oracles (parse+clean+write of one pass, file copy) returning the list of file effects; prove a bound on the length of every written text.
- **C02** (A failed run never writes anything except a byte-identical copy of the input). Same model; invariant over the multipass loop. Expected refuted for the combination clean error + failing copy; the precise guarded version is proved.
- **C03** (Multipass cleaning stops exactly at the first pass whose size equals the previous one). Same model: fuelled loop, characterisation of the stopping pass as a mathematical sequence; termination from non-increasing sizes; refuted for arbitrary sizes.
- **C04** (Command line options resolve to explicit value, else documented default, else off). Model the clap value table (key -> explicit value option), Flags::_resolve, gen_*_options; prove field by field equality with the independent table of documented defaults. Refuted for join-style-attributes and remove-unresolved-classes under --no-defaults.
- **C05** (Inconsistent option combinations are rejected, consistent ones accepted). Model check_values; compare with the resolved options; both directions refuted under --no-defaults / default-dependent; exact theorem without --no-defaults.
- **C06** (Accepted precisions are always usable for rounding). Model u8 parsing on strings and POW_VEC; finite table lifted to all strings.
- **C07** (Unsupported documents are rejected before any modification). Model the traversal and compare with an independent "some node satisfies bad" specification.
- **C08** (No pass leaves a dangling or duplicated node reference). `SpecWf.well_formed` (unique keys, links resolve, attribute names unique, a document node at the top); preservation lemma `fine_*` for each of the passes (WfAll, WfPasses, WfPasses2, WfStruct, WfUse, WfGrad), then induction over the run of `clean_doc` (`SpecClean.runs`). For tidy input documents (`SpecTidy.tidy`, a condition on the input only) the conditions of the three conditional passes are proved to hold when those passes start: an invariant (`Mild.tame`, `Mild.nest`) carried through all passes before them (Mild*.v, `MildAll.safe_all`).
- **C09** (Trimmed ids are valid, pairwise distinct and shortest-first). Model the digit counter; refine to a natural number counter (bijective numeration), injectivity and order from arithmetic.
- **C10** (Trimming ids renames exactly the referenced SVG elements with an id and nothing else). fold over the preorder with the counter; map-level specification.
- **C11** (Only ids that nothing refers to are dropped). map over nodes with a link scan; closed-form.
- **C12** (Removing titles, descriptions and metadata removes exactly those elements). drain model on rose trees; compare to a filter specification.
- **C13** (After group_defs there is exactly one defs, it comes first and holds every referencable element). model group_defs step by step; structural postconditions.
- **C14** (Unused definitions are removed to a fixpoint and used ones never). fuelled fixpoint; measure = number of nodes; invariants.
- **C15** (inherit and currentColor are resolved to the nearest ancestor's value). model with ancestors list; specification by nearest ancestor.
- **C16** (Gradient attributes are resolved along the xlink:href chain). gen_order as fuelled worklist; resolved values by chain recursion.
- **C17** (Stop offsets are always present after resolution, or the document is rejected). list recursion on the children of each gradient.
- **C18** (Invalid attribute fixing establishes the SVG validity conditions and is idempotent). per-element functions over exact rationals; postconditions and idempotence.
- **C19** (Rounding moves a number by at most half a unit of the last kept digit and is idempotent). rounding over exact rationals: floor-based round half away; error bound. SpecDigits, Props_digits (C19_documented_precision): which of the four options sets the precision of which number, by the documentation; that --coordinates-precision also rounds stroke-dasharray, and --paths-coordinates-precision also viewBox and points, is not documented.
- **C20** (Removing redundant gradient stops does not change the painted colour ramp). stop lists as piecewise linear functions on rationals; pointwise equality.
- **C21** (Merging duplicate gradients never changes a paint). rm_loop model with the comparison functions; expected refuted corners (href, empty ids), guarded theorem.
- **C22** (Merging duplicate blur filters never changes a filter result). same rm_loop with filter comparison.
- **C23** (Inlining a gradient into its single user preserves its resolved form). model with uses_count; effective stops by chain recursion.
- **C24** (Applying a transform to a gradient yields the same gradient geometry). affine algebra over rationals.
- **C25** (Applying a transform to a shape keeps its painted geometry and stroke width). affine algebra over rationals; recalc_stroke.
- **C26** (Ungrouping groups preserves what is painted). painted-leaf semantics (transform, opacity, computed inheritable style) over rose trees; step lemma + termination measure.
- **C27** (Grouping elements by style preserves what is painted). same painted-leaf semantics. The groups that are added have at least two children each (C27_new_groups_partial: `crowd` in StyleEnd, next to `frame`).
- **C28** (Only elements that cannot be painted are removed as invisible). invisible predicate vs. independent "renders nothing" predicate; refuted corners.
- **C29** (Resolving use elements keeps the painted content). painted-leaf semantics with use expansion of one level; refuted corners, guarded theorem.
- **C30** (Removing default-valued attributes preserves the computed value of every property). computed value semantics over ancestors.
- **C31** (Text attributes are only removed where no text can see them). computed value semantics restricted to text attributes.
- **C32** (Needless fill, stroke and clip attributes are only removed where they have no effect). per-element conditions.
- **C33** (Unused coordinates are removed only when they equal the value implied by their absence). effective coordinate semantics.
- **C34** (Redundant gradient attributes are only removed when the href chain supplies the same value). effective value along href chain.
- **C35** (Joining presentation attributes into style is lossless and conditional). model of the style string writer, plus an independent style parser; round trip.
- **C36** (Converting shapes to paths preserves the outline). path semantics (list of drawn segments) vs. polygon outline.
- **C37** (Path normalisation between absolute and relative commands preserves the drawn curve). path semantics: interpretation of a segment list into absolute drawn edges.
- **C38** (Removing unused path segments preserves the drawn figure). interpretation equality modulo zero-length/closing edges.
- **C39** (Curves are replaced by lines only if they trace the same line). Bezier point sets over rationals.
- **C40** (Applying a transform to path data yields the transformed curve). affine image of the interpretation.
- **C41** (Path processing never panics on a path that starts with a move). error monad; absence of Panic.
- **C42** (Sharing equal stop lists preserves every gradient's stops). model with fresh id generation.
- **C43** (The final fixes keep the document well-formed). node-level models.
- **C44** (Cleaning never aborts on a document with a root svg element). composition of the panics found (eight refuted families); for documents without references (`SpecPanic.plain_document`) an invariant carried through all passes: a pass only *shrinks* a document (`PlainTree.shr`), is the identity on documents without gradients (PlainSkip), or is treated on its own (PlainDefs, PlainInvisible, PlainUngroup, PlainEnd); PlainAll composes them.
- **C45** (Disabled options have no effect). clean_doc is modelled as it is written (`Clean.v`); a separate table of passes (`SpecClean.pipeline`, `enabled`, `perform`) and an inductive run relation are the specification. The segment options are switches inside one pass; C45_path_switches (Props_pathopts) says what each of them can change, in terms of outlines and figures.
- **C46** (Removing defs wrappers keeps their content referenced and unrendered). model of ungroup_defs.
- **C47** (Cleaning comes to an end). Non-termination is `None`; for each loop a measure (Ends.v: number of nodes for ungrouping, number of hrefs for merging gradients, rank of the links for the gradient orders), exact characterisation for the two gradient passes at the start, induction over the run for the whole program. For tidy documents: the same invariant as in C08, with a rank of the gradient links (`Mild.ranked`).
- **C48** (The named input is read and the named output is written). case analysis on the modelled `input` and `output`; specification from the help text.
- **C49** (A cleaned document is accepted again). an invariant of single nodes, relative to a classification of the keys (ordinary element, element whose reference may be external, foreign node), kept by every pass (StillAll.v) and followed through `runs`; the checks are related to the specification by C07.
- **C50** (No new kinds of content). the same invariant with a forbidden kind instead of the attributes; no hypothesis. C50_new_kinds_by_option ties the kinds that may be new to the option that brings them. C12 for a whole run follows from it and from C08 up to the removal.
- **C51** (Cleaning as a whole keeps the picture). SpecPicture: `same_picture` on top of the paint relation of SpecPaint, up to ids, remarks, identity transforms and the version. PictureSim: a simulation between subtrees that are painted alike; PictureTwin/PictureTail: passes that only change such attributes; PictureRemarks: pruning; PictureGrad: the removal of repeated stops is a pruning of what nothing refers to, and transforms of gradients are applied to gradients only; SteppedReady: ungrouping keeps the conditions of grouping by style; PictureEnd: the passes in sequence by the runs of C45. SpecPrepared: the input class; PictureServers/PicturePrep: the preparation only changes gradients and stops of such documents, which the picture does not show, and keeps all the conditions. PictureRun, Props_picturerun: the same documents are cleaned without an error, a panic or an endless loop if their gradients are `solvable` (C44_prepared_partial, C51_whole_partial): the gradient passes end because chains of references end, the stops because their offsets are numbers, trim_ids because no pass adds an id.
- **C52** (The removal options leave nothing of what they promise to remove). Props_textgone, Props_needlessgone, Props_invisiblegone: the invariants of C31/C32 read in the other direction; for remove_invisible a relation `rest` (every later tree is made of nodes of the earlier ones that keep their tag and unlinked attributes and only lose children), under which a hopeless node stays hopeless until its step removes it.
- **C53** (No attribute name, text, keyword or reference is made up). SpecValues says which names may be added, which values are calculated, and where a text may be copied from (`accounted`). StillValues, StillValuesAll: for every predicate on (name, value) that is closed under the ways values arise (four, and the two ways references are redirected if the options for them are on), every pass keeps it on all attributes; Props_values puts in `accounted t`, and for the keywords combines it with C15_no_keywords and C08 (well-formedness after each step). Proved for every document; no hypothesis but for the keywords theorem.
- **C54** (What the last steps promise holds for the document that is saved). Props_final: the run of C45 is cut into the documents after each of the last eight passes (`late`); relations between an earlier and a later document (names and ids are a sublist; the outermost element is the same and has no new attributes but two; `later`: a reference to a node that stays is kept unless it stood on a defs element) carry what each pass establishes to the end. The claim on unreferenced ids is refuted (a defs element that is dissolved after the ids takes its references with it); proved up to that.
- **C55** (References can be written as ids and read again). SpecIds says when ids serve their purpose. StillIds: given a function C from keys to names, "every node has the name C gives it and every link leads to a key with a name" is kept by every node-local, structural and copying pass (none of them touches ids but to give new nodes the empty one). Props_ids goes from documents to C and back; the five passes that name nodes (group_defs and group_by_style make nodes without an id, regroup_gradient_stops one with an id that is not in use, two change ids) have their own arguments; induction on the run.
- **C56** (Gradients keep their colours). SpecRamps: the stops with which a gradient is painted (its own, settled into [0,1] and ascending order, or those along xlink:href), same_ramps compares SpecStops.ramp at every place. Preparation: each pass acts on the list of stops of each gradient by a function (identity, settle, rounding of opacities), composed in RampsPrep. Work: ramps_kept is reflexive and transitive; attributes and order of stops are kept by ungrouping and grouping (shades_kept, Shading), by the removal of remarks and of an empty defs (no gradient is inside, shown from the main defs), by cosmetic passes; repeated stops by C20's dedup_ramp; gradient transforms touch gradients only. Induction over painted_stops for chains of references. Proved for the light passes on prepared documents (partial).
- **C57** (Gradients keep their geometry). SpecGeometry: same_geometry compares SpecGradients.effective of the written documents for every gradient and attribute. `tracks` (Geometry) says that each gradient is kept with the same own geometry and the same reference; then effective values are the same (induction over the chain). Preparation: C16 for the resolved values, values are short so that rounding keeps them; work: Shading's shades_kept, which now keeps the visibility of attributes as well, and no pass of `light` writes to a gradient but the one for transforms. With that pass (GeoResolve, GeoVectors): after the resolution every gradient carries its values in effect (C16), so the premises of C24 hold there; they are kept by the passes up to the one for transforms and by that pass, which may run twice; `same_gradient` composes, because no transform is in effect on a gradient whose transform was applied.

## Trusted base

- Coq 8.16.1's kernel (including `vm_compute`, used for concrete documents and finite tables).
- Axioms. `Print Assumptions` says "Closed under the global context" for 274 of the 276 theorems in MANIFEST.json. The two others are about
  curves over the real numbers of the standard library and list axioms of that library only: `C39_same_points_partial` and
  `C39_overshooting_curve_refuted` (`ClassicalDedekindReals.sig_not_dec`, `ClassicalDedekindReals.sig_forall_dec`,
  `FunctionalExtensionality.functional_extensionality_dep`). There are no axioms, parameters, functors, admitted proofs or switched-off checks in `rocq/theories`.
- The reading of /repo by the author (nothing links the Rust code to the model mechanically).
- The svgdom contract. svgdom 0.10.5 is not available in the sandbox; what the code uses of it is modelled from its documented behaviour:
  * documents are trees, `parents()` goes upwards without the node itself, `descendants()` is the preorder;
  * `linked_nodes`/`is_used`/`uses_count` reflect the links that attributes of nodes of the document hold;
  * `remove` removes the attributes that link to removed nodes; `detach` does not; `append`, `prepend`, `insert_before/after` detach first;
  * `set_attribute` replaces value and visibility, or appends; it panics for forbidden links (above);
  * `conv_to_absolute`/`conv_to_relative` (C37 proves that the modelled versions keep the curve);
  * `is_inheritable`, `is_presentation`, `is_fill`, ... : tables in `Names.v`, copied from the SVG specification as svgdom does;
  * the parser gives every attribute the type that belongs to its name (used only where a theorem says so).
  Four things about svgdom are left open and every theorem holds for both (all) possibilities: the table of default values (`x_default`), how values
  are written (`x_write`), whether `descendants()` of a node starts with the node itself (`x_self`, used in the preparation of `ungroup_groups`), and whether an iterator over the document ends when
  the node it stands at has been removed (`x_stops`, in `remove_invisible`).

## How the theorems were tested

`tools/seed.py` applies an edit to a scratch copy of the model, rebuilds, replaces proofs that break by `Admitted` (there only) and reports
the property theorems that no longer hold; `seeded/LOG.jsonl` has one line per edit.

## Defects of the code found on the way (all are `_refuted` theorems)

- Command line and driver: with `--copy-on-error` a failing copy is followed by a write of the uncleaned data (C02); `--multipass` need not end (C03); `--no-defaults`
  does not reset remove-unresolved-classes (C04); option checks look at explicit values only (C05);
  `svgcleaner in.svg -` reads the standard input and overwrites in.svg, `svgcleaner - out.svg` reads a file named "-" (C48).
- Ids: trimmed ids may start with a digit, or collide with ids of foreign elements (C09, C10).
- Aborts: eight families (C44), among them a stop offset with a unit, a hidden svg element, a transform on a foreign element, a comment in a group, duplicate gradients without id, links in
  both directions.
- Endless loops: circles of gradient links (C16, C34, C47), also circles that resolve_use or the removal of duplicate gradients make themselves (C47).
- Gradients: wrong focus for mixed chains (C16), hidden radius (C24), ramps with title children (C20), merged or inlined gradients with different stops (C21, C23), currentColor stops (C42).
- Paths: equal consecutive curves and smooth curves after zero-length lines (C38), overshooting or chained curves turned into lines (C39), drift of rounded relative paths (C19).
- Painting: seven cases for ungroup_groups (C26), two for group_by_style (C27), thirteen for remove_invisible (C28), six for resolve_use (C29), one dangling link (C08).
- A gradient that refers to a gradient without stops is saved with `xlink:href="none"`, and the program refuses to clean its own output (C49).
- Attributes: defaults of font-face and of patterns with templates (C30), text attributes (C31), needless attributes (C32), radii in percent (C33), xmlns:xlink (C43), semicolons in style values (C35), `inherit` of
  properties that are not inherited (C15), style of definitions moved out of groups or out of defs (C13, C46).
