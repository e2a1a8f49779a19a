# Formal model of IFEM-Elasticity: design

## Layout

* `properties.jsonl` - the properties (generated by `tools/gen_properties.py`).
* `rocq/theories/Lib` - small shared definitions (bounded matrices, sums, 3-vectors). No property lives here.
* `rocq/theories/Model` - the model. Only definitions; every definition cites the file and lines of
  `/repo` it transcribes and says where it simplifies.
* `rocq/theories/Spec` - independent specifications (Hooke's law, derivative, equilibrium, signed
  distance, ...), written without the model's helpers.
* `rocq/theories/Proofs` - lemmas, the proofs, and next to them `Example`s showing that the hypotheses
  are met by concrete non-trivial data.
* `rocq/theories/Props` - the property theorems only (`Theorem ... exact lemma.`), each followed by
  `Print Assumptions`.
* `MANIFEST.json` - claims, `seeded/LOG.jsonl` - wrong-program experiments.

## Modelling choices

* **Numeric kernels** (constitutive laws, element matrices, closed-form solutions) are modelled over the
  mathematical reals `R` of the standard library. Rounding is *not* modelled: the theorems say the formulas
  of the code are right, not that double evaluation of them is accurate. NaN/infinity questions are modelled
  separately over the standard library's `SpecFloat` (IEEE-754 binary64 comparison semantics).
* **Matrices and vectors** are 1-based as in IFEM. Where the code sizes a matrix and then writes to it, the
  model's matrix carries its dimensions and an out-of-range access is the distinct outcome `None`/`UB`.
* **Drivers, lookups, tables, histories** are modelled over `nat`/`Z`/`Q`/lists as state machines or
  folds; calls into the IFEM library or the equation solver are oracles (function arguments or an
  arbitrary list of outcomes), so theorems hold for every behaviour of them.
* **Undefined behaviour** (index out of range, unsigned wrap used as index, bad static cast) is a distinct
  outcome.
* The IFEM base library (Tensor, SymmTensor, TimeStep, NonLinSIM, SAM, ...) is not part of this repository.
  What is assumed about it is listed under "Trusted base".

## When the code violates a property

If the full statement is false of the faithful model we prove `Cxx_..._refuted` (an explicit witness) and, in
addition, the strongest restriction that does hold as `Cxx_..._partial`. These are findings; they are
summarised in the section "Findings".

## Per-property plan

"Modelled as" names the file under `rocq/theories/Model`; the theorems of each property and remarks on what is
missing are in `MANIFEST.json`. Status `partial` means that the statement is false of the code in general (then
there is a `_refuted` theorem with a witness, see "Findings") or proved under the restriction named in its note.

