# Formal model of nanoserde in Rocq (Coq 8.16.1)

## 1. What is modelled, and how

The generated `impl`s of the derive macros and the hand written `impl`s in
`src/serde_*.rs` form an open family of functions, one per Rust type.  We use a
*deep embedding*: an inductive `ty` of type descriptions (everything the crate
implements its traits for, plus derived structs and enums, which may be
recursive through an environment `env` of declarations), an untyped universe
`val` of values, typing predicates (`has_type` for the binary format,
`text_typed` for the text formats), and one interpreter per trait method:

| code in `/repo`                              | model (file)                                   |
|----------------------------------------------|------------------------------------------------|
| `SerBin::ser_bin`, `DeBin::de_bin`           | `ser_bin`, `de_bin` (`BinModel.v`)             |
| characters, numbers, lexers of JSON and RON  | `Text.v` (`jnext`, `rnext` ... one state machine per `State::next_tok`) |
| `SerJson`, `SerRon`                          | `ser_text` with a format argument (`TextModel.v`) |
| `DeJson`, `DeRon`                            | `de_text` with a format argument, over an abstract lexer interface instantiated with the lexers of `Text.v` (`TextModel.v`) |
| `TomlParser::parse`                          | `TomlModel.v`                                  |
| `Toml` accessors, error `Display`            | `ErrorModel.v`                                 |
| `[T; N]` with `MaybeUninit` slots            | `ArrayDrop.v` (slots, drop log), proved equal in outcome to the readers above |
| text printed by the derive macros (`derive/src/serde_bin.rs`, `serde_json.rs`, `serde_ron.rs`) | `GenModel.v`, `GenJsonModel.v`, `GenRonModel.v` (the templates as text and the little programs they contain) |
| `derive/src/parse.rs`, `shared.rs`, attribute reading in `derive/src/serde_*.rs` | `DeriveModel.v` (token trees in, definitions / declarations / impl headers out) |

Each clause of an interpreter transcribes one Rust `impl` (or the code a derive
macro prints) statement by statement and cites file and lines.  Outcomes are
`Ok v | Err e | Panic why | NoFuel`: panics are outcomes of the model, not
assumed away.  Interpreters recurse on a fuel `nat` so that loops and recursion
that really diverge can be represented (`NoFuel` for every fuel).  A theorem
never speaks about one particular fuel: "returns r" is
`exists n, forall m >= n, f m = r`, "diverges" is `forall n, f n = NoFuel`, and
the `*_mono` lemmas show the outcome does not depend on the fuel once there is
enough.

Machine configuration (`cfg`): pointer width 32/64, overflow checks on (debug)
or off (release), and an arbitrary predicate saying which `with_capacity`
requests the allocator grants.  All theorems quantify over it.

Floating point: the standard library's formatting and parsing of `f32`/`f64` is
a record `flt` of functions.  The theorems that need facts about it state them
as hypotheses, `flt_ok` (what `Display` prints, `parse` reads back, bit for bit
for finite numbers; printed text has the lexical shape of a number), `flt_bits`
(results are 64/32 bit patterns), `flt_ints`; `TextEx.v` gives an instance that
meets them, so no theorem is vacuous in them.

Files: `Base`, `Utf8`, `Types`; `Bin*`; `Text*`; `Toml*`; `ArrayDrop*`;
`Derive*`; `Grow` (enums that grow), `Doc`, `Show`, `Carry` (JSON documents).  `Spec*` files hold the independent specifications (wire
layout, RFC 8259 grammar, string denotation, members of an object, ...);
`Props*` files hold the property theorems (`tools/assumptions.py` runs `Print Assumptions`
on each theorem of MANIFEST.json),
with examples that meet their hypotheses next to them.

## 2. Plan per property

Binary
* C01, C02, C03: `has_type` value; by induction on the derivation height, de of `pre ++ ser v ++ post` at `|pre|` gives `v` and offset `|pre|+|ser v|`; streams by list induction.
* C04: separate relation `wire` (SpecBin.v) describing the layout; ser produces exactly the bytes it relates.
* C05: if de_bin succeeds then bounds; two inputs agreeing on the window give the same result.
* C06, C07: corollaries of C02 and of monotonicity under extension.
* C08: refuted for the full statement (String length overflow, with_capacity, Duration carry, SystemTime addition), with witnesses; partial theorem: panics only for those reasons, hence never for types not containing them.
* C09: error shape of a fixed-width read, all integer/float types and offsets.
* C10, C11: decoded values have the type, then C01 applies; canonical sub-universe gives byte equality.
* C12: insertion semantics against a declarative "last write wins" map.
* C13: enum tags. C14: skip. C15: two configurations (refuted for values >= 2^32: truncated silently). C16: proxies.
* C56: simulation between the readers of two environments. C57: every clause of the reader moves the offset by the size.

JSON
* C17: token-level invariant; de on ser output by height induction.
* C18, C22, C33: string literal denotation specified separately; C33 refuted for numbers such as `1e+5`, partial for strings.
* C19: refuted for signed targets (wrap), proved for unsigned ones and below 2^63.
* C20: RFC 8259 grammar as inductive relation; ser output derives it (restricted universe; refuted for enum struct variants ending in None).
* C21: simulation between states with the same token stream.
* C23, C24, C25, C28, C32: texts composed of texts of members/items (`value_text`, `entire`), reading of the parts gives the reading of the whole.
* C26, C27, C29, C31, C49: refuted with witnesses; partial positive theorems.
* C30: invariant on line/column of the lexer states (RON/TOML column refuted).
* C34: values read from text are well typed. C52: reading, writing, reading again.

RON: C35-C40 as for JSON (C40 refuted: character literals skipped).
TOML: C41-C48 on the TOML interpreter (C42, C45, C46, C47 refuted in part).
C50: ghost model of the `MaybeUninit` slots with a drop log.
Derive: C51, C53-C55 on `DeriveModel.v`: for definitions of a specified syntax
(`def_ok`), printing them to token trees and reading them with the model of the
macro's reader gives the definition back; attributes give the declaration the
interpreters run on; refutations for the shapes the reader gets wrong.
C58: rendering of errors composed with the position theorems. C59: accessors.
C60: documents as trees (`SpecDoc`), a relation between texts and documents, a relation
`means` between documents, types and values; equivalence with the parser by induction over fuel
(both ways).  C61, C62: the document a value is written as, and so what another program (with
other declarations) reads.  C63: the same for RON (`SpecRon`, `RonDoc`): equivalence by induction over
the document, with the exception that parsing stops after a name at the top.  C64, C65: as C61, C62, for RON
(`SpecRonShow`).  C66: exactly which texts `deserialize_json` takes, and as which value.  `SpecTok`
describes the tokens of a text (both formats) without the lexer, `SpecAcc` the sequences of tokens taken
for each type; `TokLex` shows the lexer finds exactly these tokens, `AccBase`, `AccDoc`, `AccDe` show by
induction over the fuel that the deserializers take exactly these sequences, both ways.
C67: the same for RON (`SpecRonAcc`, `RonAccDoc`, `RonAccDe`); with C37, all other texts are errors.
C68: `GenModel` models the text templates of the binary derive (derive/src/serde_bin.rs) as functions from the
macro's own data to text; `SpecGen` gives the fragment of Rust they use a syntax, a printer and a semantics
(trusted: that rustc agrees with it); proved: the printed text is the printing of a program that runs as the
interpreter of C01-C16 does on the declaration of C54, for every definition.
C69, C70: the same for the JSON and RON derives (`GenJsonModel`, `GenRonModel`, derive/src/serde_json.rs and
serde_ron.rs): `SpecGenText` has the fragment of Rust (statements, blank space included), its printer and its
semantics over the same lexer interface; `GenText` the programs, `GenPrint` that the templates print them,
`GenTextSer`/`GenTextDe` that they run as the interpreter of C17-C40 does, `PropsGenText` both directions of fuel,
the round trips and the definitions for which the claim is false.

C71 (size of what is read): `SpecMem.v` defines the size of a value and which types have a bound.  Binary: a cost judgement
(`Costs` in `BinMem.v`: the weight of the result is at most K times the bytes read) proved for every reader by induction on the
model; credits for elements that take at least a byte make it linear also for recursive types (`BinMemAll.v`).  Text: induction
over the exact token grammar of C66/C67, tokens being at most as wide as their spelling (`TextMem.v`).

C72 (nested calls): in `de_bin` and `ser_bin` of BinModel.v the fuel goes down by one per call of the reader (writer) of a part and loops do not
use it, so "fuel n suffices" says "at most n nested calls".  `Depth.v` makes the termination proof of BinFuel.v quantitative (between two bytes read at
most rank * height calls are nested; the rank exists by `guarded`); `PropsDepth.v` has the bound, that every level of a value takes a call, the towers
(no limit, in all three formats, through C01, C60 and C63), and the bound for writing (induction on the nesting of the value).  Not modelled: the size
of a stack frame, so no number of bytes of stack.

C73 (TOML texts): `SpecTomlAcc.v` is a grammar of tokens (`first_token`), values, entries and texts, independent of the scanner;
`TomlAcc.v` proves scanner and grammar equal in both directions, token by token and entry by entry, and joins this to the meaning
of entry lists (`run_means`, C43/C44).  `PropsTomlAcc.v` has the theorems, `TomlMem.v` the size bound (C71_toml).

C74 (routes): `SpecRoute.v` gives conditions on declarations (`portable`) and the sub-value relation `part`; `Route.v` proves that every value of a portable type is a value of the round-trip theorems C01, C17, C35, and that values read from texts (C34) or bytes (C11) are such values; `PropsRoute.v` chains them along any list of formats.

C75 (whole programs): `SpecProg.v` ties the knot over C68-C70: a program is a list of definitions with the code printed for each; a call at a user's type runs that code (semantics of SpecGen/SpecGenText), a call at a built-in type runs one step of the library's impl, and both call the program again. `Prog.v` proves by induction on the depth of calls that the program and the model of the declarations simulate each other (Ok outcomes for writers, all outcomes for readers); `PropsProg.v` states it with the round trips C01-C03, C17, C35.

C76 (every outcome of a JSON parse): `SpecCrash.v` defines, over the tokens of SpecTok.v and the meaning of token lists of SpecAcc.v, the token lists at which reading a type breaks down (`breaks`, mutually with items and members) and what must come behind them. Proof: two judgements over the token machine, `cinv` (a panic or a run out of fuel, with the fuel above a bound that depends on the number of tokens, only happens at such tokens; CrashBase.v, Crash.v for loops and fixed lists, CrashDe.v for the scalars and the clock types, CrashAll.v for lists, maps, tuples and structs, CrashTy.v for enums and all types) and `cfwd` (at such tokens it happens, from some fuel on). The inverse goes by induction on the number of tokens, then the rank of names reached at once (as in TextTerm.v), then the type; the forward direction by induction on `breaks`. PropsCrash.v turns both into statements about texts.

C77 (every outcome of a binary read): `SpecBinAcc.v` defines `spells` (mutual inductive, in the style of SpecBin.wire but with the reader's liberties) and `stops` (inductive; error or panic, final offset, over all the rest of the input). Proof (`BinAcc.v`): forward judgements FV/FX over the reader's monad by induction on the specification, backward judgement Inv by induction on fuel; loops by splitting iter_nat_m.

C78 (every error of the TOML parser): `SpecTomlErr.v` defines texts that begin with no token (`bad_token`), places where a token of some kind is wanted (`wants`),
and `entry_err` over the grammar of `SpecTomlAcc.v`; `TomlErr.v` proves both directions against the scanner and the parser (each scanner case inverted; simulation with enough
fuel for the other direction), the line from the position invariant of `TomlTerm.v`; `PropsTomlErr.v` the theorems and that each relation depends only on the text up to its end and one character.

C79 (error messages are true): `SpecSay.v` defines, for each message, what it claims of the type, of the tokens read and of what follows (`says`, `lexical`), and where an error points (`points_at`). `Say.v` proves a Hoare-style triple for every reader: in an invariant that relates the state of the tokenizer to the tokens of the text (`sees`: tokens read, current token, name buffer, position), every error satisfies the specification; for failures of the scanner by inversion of the scan (`scan_barred`, `scan_unreadable`). Induction on fuel over all types; a failed token leaves a weaker invariant (`lost`) that only the comma check of a tuple sees.

C80 (linear work): `Work.v` builds a tokenizer with a counter and proves, for every reader, `counter + phi` does not grow over a successful read, with `phi` twice the characters left plus one unless the current token is the end; a failing read may call the tokenizer again only a bounded number of times at the end (`tr P d e m Q` carries the slack). `PropsWork.v`: the counting reader is related to the plain one by the simulation of `TextSim.v`; the bound follows for every text, and termination from C37 and C76.

C81 (TOML join and order): on top of the acceptance theorems of C73: `means` of C44 depends only on the last value of each full key (`means_alike`), so documents that assign the same are read the same; for joining, the relations `entries_at` and `entry_err` are insensitive to what comes behind one blank (`entries_loc` of C78) and to blanks before them.

C82 (one line): by induction on the fuel of the writers, every character written satisfies P, for any P that holds of printable ASCII, of the escapes of every character (`esc_char`), of the names in the declarations and of printed floats; instantiated with `visible` for JSON and `in_line` for RON. With the round trip of C17/C35 this gives that a stream of lines is split back into the texts and read back (C82_lines).

C83 (newer versions): a simulation on the acceptance relation of C66: by induction on the fuel of `takes` for the old declarations, and on the derivation of the type change, the same tokens are taken for the new type, with a value related by `becomes`; removed members are `ignored` because the tokens of every value are balanced (`takes_ignored`). C66 carries this to texts.

C84 (newer versions, RON): the same simulation on the acceptance relation of C67 (`rtakes`); since every member must name a field, no member can have the name of a new field.

C85 (same layout): on the acceptance relation of C77 (`spells`). `flat` opens the types without bytes of their own; a spelling of the opened parts is one of the whole and conversely (`open_out`, `open_in`). Induction on the number of bytes: what is inside an option, collection or enum has fewer, so the pairing of types may be circular. This is done for a machine with room for everything; then a spelling there is a spelling on the real machine or the read ends for lack of room (`real`).

C86 (linear work, binary): a copy of the model of `de_bin` with a counter (`counted`: the same outcome). Each type has a weight, the calls it makes for no bytes (finite as declarations are guarded); what stands behind a tag or in a collection weighs at most K; by induction on the fuel the calls are at most the weight plus K(2x-1) for x bytes passed over: a tag pays K for what follows, an item pays K for itself and one more K for what the loop breaks off with. Weights and K are shown to exist for every guarded environment.

C87 (linear work, TOML): a copy of the model of the TOML parser with a counter (`counted_toml_same`: the same outcome). The count plus three times the characters left never grows by more than one: a token other than the end takes a character and so leaves one over, which pays for the end that an unclosed bracket runs into.

## 3. Trusted base
* Coq's kernel (coqc 8.16.1, re-checked with coqchk).  No axioms of our own.
  `Print Assumptions` says "Closed under the global context" for every theorem
  in the `Props*` files.  The check of the whole library lists the axioms
  `Coq.ssr.ssrunder.Under_rel.*` because `Coq.ssr` is loaded by the standard
  library's dependencies; no theorem uses them.
* The reading of `/repo`: every definition cites lines; nothing was executed.
* Rust/std facts written into the model: integer wrap/overflow behaviour,
  slice indexing panics, UTF-8 validity, `str::parse` for integers, `Display`
  for integers, BTree/Hash collection semantics (Eq/Ord structural; hash
  iteration order is the order of the list in the value),
  `Duration::new`, `SystemTime` addition. Float formatting/parsing is an oracle
  whose contract is an explicit hypothesis of the theorems that need it.
* Proxies are pairs of arbitrary functions on values; the round-trip theorems
  ask that they are inverse to each other on the values concerned.
* Not modelled: memory exhaustion other than `with_capacity`; stack overflow
  (recursion is unbounded in the model); the `Debug` text of a token inside an
  "unexpected token" message (an arbitrary function) and the message part of TOML errors; `no_std` switches;
  rustc's own checks on the printed code (whether a printed impl compiles),
  except where a derive theorem says what is printed.
