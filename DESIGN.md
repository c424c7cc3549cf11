# Formal model of TRAIS-Lab/dattri in Rocq (Coq 8.16.1)

## 1. Layout

All sources are in `rocq/theories`. Each topic `X` has up to four files:

* `XModel.v` – executable model of the Python code, one definition per function
  (or loop body), each with a comment citing the file and lines it models and
  what was simplified. No proofs.
* `XSpec.v`  – the independent specification (what the English property says),
  not using helpers of the model.
* `XProof.v` – lemmas.
* `XProps.v` – the property theorems `Cnn_name`, concrete instances that meet
  their hypotheses (`Example`, theorems on literal data never count as the
  property itself), and `Print Assumptions` for every theorem.

`FieldSupport.v` connects stdlib `ring`/`field` to mathcomp fields.

## 2. Plan: how each property is modelled and proved

| id | model | proof |
|---|---|---|
| C01 | the recursion over sorted neighbours (`data_shapley.py` 191-210), distances abstracted to the permutation the sort returns | closed form by backward induction; the Shapley value defined as the weighted sum over all subsets, marginal contributions regrouped by neighbour rank, binomial identities by induction |
| C02 | block writes into the distance matrix, label accumulation | block-assembly lemma: consecutive blocks cover every cell exactly once |
| C03, C04 | the loops of `base.py` with per-sample oracles for representations | invariants over checkpoints (running mean) and batches (block assembly) |
| C05, C06 | TracIn loops, weights, normalisation with 0/0 -> 0 | same |
| C07 | TRAK state machine (cache/attribute), matrix formula | refinement of both loops to one closed form |
| C08 | DataInf transform over chunks of gradients | Sherman-Morrison, matrix algebra over any field |
| C09 | `hvp`/`ihvp_explicit` with the Hessian as an oracle matrix | matrix algebra |
| C10 | CG loop with 0/0 explicit | conjugacy and Krylov invariants by induction, dimension bound by rank |
| C11 | LiSSA loop | geometric series by induction |
| C12 | Arnoldi loop with norms as oracle square roots | Gram-Schmidt induction |
| C13 | IF transform loop | fold lemma + refutation witness |
| C14 | `_compute_denom` | order reasoning in a real field |
| C15 | running covariance / lambda update | invariant over batch histories |
| C16 | EKFAC transform | orthogonal matrices, witness for the transposed basis |
| C17, C18 | DVEmb backward recursion; its object state machine | induction over steps; invariants over call histories |
| C19, C20 | projector state machine (current ensemble id, generator as a function of the seed) | invariant over call histories |
| C21 | chunk-size loop (fuel-free, well-founded) | induction |
| C22 | `dict_project` buffer loop | simulation against the flat vector |
| C23 | seed arithmetic | lia / witnesses |
| C24, C25 | flatten/unflatten/partial_param on association lists with the shared dict as state | induction on layouts, histories |
| C26 | task object state machine | invariant over histories |
| C27, C28 | metrics | sums over index sets; trapezoid telescoping to pair counting |
| C29 | brittleness loop | induction on the search space |
| C30, C31, C32 | retraining scripts writing into a finite-map file system, ground-truth readers | round trips |
| C33, C34 | label flipping, dropout activation | list induction |
| C35, C40, C41, C42 | offload stores, collate functions and the attributor on top | refinement to a finite map; invariants over histories |
| C36 | disk manager as a labelled transition system (main thread, queue, writers) | inductive invariant over all interleavings |
| C37, C38 | write steps as prefixes; crash = any prefix | case analysis over all prefixes/histories |
| C39 | prefetch thread + consumer as a transition system | inductive invariant |
| C43, C44 | covariance/damping; compressor | matrix algebra (Gram matrices PSD; Kronecker identities) |
| C45 | hook installation as state over layers | invariant over histories of sessions and training steps, counterexample histories |
| C46, C47 | MIDI codec, windows | arithmetic, list induction |
| C48 | line search | termination by measure on the step size |
| C49, C50 | batch iterator, CIFAR-2 relabelling | list induction |
| C51 | factorised gradients of DVEmb | einsum identities, linearity of fixed projections |
| C52 | representer values, fine tuning, hook on the final layer | gradient identity over any field, histories |
| C53 | benchmark settings and their download cache | file system and server as data; frame and history lemmas |
| C54 | music transformer with relative positions, generation | nested lists with explicit reshapes against a per-position reference; induction over layers and generated tokens |
| C55 | loss functions of the benchmark settings | per-sample specification, flattening lemmas, witnesses |
| C56 | training functions of the benchmark settings, with the retraining drivers | loop invariant against gradient descent without accumulators; composition with C30 and C32 |
| C57 | nanoGPT: text preparation, batches, learning rate, checkpoints, retraining driver | pointer as call count modulo full batches; loop invariants over calls and records |
| C58 | projection settings; TracIn with its per-batch projectors | refinement of the per-batch program to the abstract TracIn of C05 |
| C59 | the retraining command line | reduction to the retraining drivers of C30-C32 |
| C60 | label smoothing loss, warm-up schedule | row-wise mixture identity with broadcasting; ordered-field inequalities |
| C61 | nanoGPT network and generation | per-position reference, induction over blocks and new tokens; order statistics for top-k |
| C62 | Recycled buffers, preconditioner files | simulation of the heap model by `DiskModel` (ownership invariant); invariant over outstanding saves |
| C63 | Settings of the training script, WikiText blocks | induction over arguments and row batches |
| C64 | Frozen parameters, buffers and mode seen by task functions | invariant over histories on top of C26, induction over checkpoints |
| C65 | Tied weights, live state dicts, parameter tuples and user changes behind a task | heap of cells, invariants over histories |
| C66 | Influence and TracIn scores against retraining and gradient steps, quadratic losses | implicit equation of the minimiser, norm bounds, telescoping |
| C67 | Image classifiers: rows, shapes, batch statistics | shape invariant through the layers, folding of batch normalisation, induction over passes |
| C68 | Explicit, CG, LiSSA and Arnoldi scores agree in the limit | contraction in squared length from spectral bounds, Cauchy-Schwarz over batches and checkpoints, composition of C10-C13 with C03 |
| C69 | KNN-Shapley: sign, size, order, invariances of the default distance | downward induction along the sorted distances, uniqueness of strict sorting, naturality of the loops |
| C70 | nanoGPT retraining command: files left by any sequence of calls | closed form of the training loop, invariant over sequences of calls |

Properties whose English statement fails for the code are proved in the form
"what the code does exactly", or refuted by a witness (`_refuted` theorems).

## 3. Trusted base

* Coq's kernel (8.16.1).
* `Print Assumptions` on every property theorem prints "Closed under the global
  context": no axiom is used, neither of the standard library nor ours.
  `tools/assumptions.sh` runs it over all theorems of the `*Props*.v` files and
  counts the answers (a single line is expected).
  `coqchk`, which looks at whole libraries and not at one theorem, lists the
  bodies mathcomp/ssreflect hide behind sealed module types (`fingraph`,
  `finfun`, `bigop`, `matrix` keys and so on) as constants without body; these
  are not axioms, and no theorem depends on an undefined constant.
* No axiom, `Admitted`, functor, module type, plug-in, or unchecked definition
  is used; `rocq/_CoqProject` has no flags beyond the given ones.
* Libraries: Coq's standard library and mathcomp (ssreflect, algebra, zify's
  arithmetic instances). Both are used as sources of definitions and proved
  lemmas only.
* The reading of the Python source. The model is written by hand from the text
  of `/repo`; nothing was run. Every definition cites the lines it renders.
* The specification files (`*Spec.v`) and the statements in `*Props*.v`.

What is idealised:

* Numbers: tensors hold elements of an arbitrary field, ordered field or real
  closed field. Rounding, overflow, dtypes and TF32 are not modelled. Division
  by zero, nan and inf are explicit (`None`, `ext`) where a property talks
  about them, and excluded by hypothesis or reported as such elsewhere.
* Oracles, always universally quantified: gradients, losses and Hessians of the
  user's model, pseudo-random draws as functions of seed and shape, the sort
  permutation chosen for ties, `eigh` through its defining equation, training
  functions, p-values.
* Exceptions are values (`res`), and a call that raises keeps the state it has
  written so far. Concurrency (disk writer threads, prefetch thread) is a
  transition system; theorems quantify over all interleavings. Crashes are
  arbitrary prefixes of the writes.
* Python containers: dicts are association lists in insertion order (`Dict.v`),
  aliasing is modelled where the code relies on it (`FlipModel`, `TaskModel`,
  `RpsModel`, `HookModel`) and dropped elsewhere.

## 4. What is modelled

| file in `/repo/dattri` | lines | model | not modelled |
|---|---|---|---|
| `algorithm/base.py` | all loops | `AttrModel` | progress bars, abstract signatures |
| `algorithm/tracin.py` | all | `AttrModel` | device moves |
| `algorithm/influence_function.py` | explicit, CG, LiSSA, DataInf, Arnoldi, EK-FAC attributors | `AttrModel`, `IhvpModel`, `ArnoldiModel`, `DataInfModel`, `EkfacModel`, `QuadModel` (quadratic losses: score against retraining), `AgreeModel` (the attributors side by side) | `IFAttributorArnoldi`'s device moves |
| `algorithm/trak.py` | 32-548 | `TrakModel` | probability functions returning shape (1,) |
| `algorithm/data_shapley.py` | all | `KnnModel`, `KdefModel` (constructor, default distance) | rounding in `cdist`, features outside the tensor case |
| `algorithm/dvemb.py` | all | `DvembModel` | NaN warnings |
| `algorithm/rps.py`, `algorithm/utils.py`, `model_util/hook.py` | all | `RpsModel`, `DataModel` | shuffle warning |
| `algorithm/logra.py`, `factgrass.py` | 78-104, 80-110 | `CompModel` | the rest is `BlockModel` |
| `algorithm/block_projected_if/block_projected_if.py` | 49-908 | `BlockModel`, `HookModel` | logging, devices |
| `.../core/hook.py`, `compressor.py`, `metadata.py`, `utils.py` | all | `HookModel`, `CompModel`, `MetaModel`, `BlockModel` | LayerNorm compressors (never called) |
| `.../offload/memory.py`, `cpu.py`, `disk.py`, `disk_io/*` | all | `OffModel`, `DiskModel`, `PoolModel` (buffers as heap cells, views, preconditioner files) | destructors, pinned memory, queue timeouts; a CPU preconditioner changed in place before it is saved |
| `func/hessian.py`, `func/fisher.py` | all | `IhvpModel`, `ArnoldiModel`, `EkfacModel` | autograd itself |
| `func/projection.py` | CPU projector, CUDA wrappers, chunked projector, seeds, `random_project` on the CPU, Arnoldi projector | `ProjModel`, `CompModel`, `ArnoldiModel` | CUDA kernels |
| `func/utils.py` | flatten/unflatten, `partial_param`, chunk sizes | `TaskModel`, `ProjModel` | |
| `task.py` | all | `TaskModel`, `DataInfModel`, `AmbModel` (frozen parameters, buffers, mode), `LiveModel` (tied weights, shared memory) | buffers outside the state dict; tied weights together with `layer_name` |
| `metric/*` | all | `MetricModel`, `RetrainModel` | p-values |
| `model_util/retrain.py`, `dropout.py` | all | `RetrainModel`, `FlipModel` | CUDA generator |
| `benchmark/utils.py` | `flip_label` | `FlipModel` | |
| `benchmark/models/MusicTransformer/rpr.py`, `music_transformer.py`, `positional_encoding.py` | eval mode, `rpr=True` | `MtModel` | padding masks, `rpr=False`, dropout |
| `benchmark/models/{resnet9,mlp,logistic_regression}` | `ResNet9`, `MLPMnist`, `LogisticRegressionMnist`, forward passes | `NetModel` | drawing of dropout masks (parameters of the model for ResNet9, inactive for the perceptron), `num_batches_tracked`, initialisation, non-contiguous inputs, empty training batches |
| `benchmark/datasets/{mnist,cifar,imagenet,wikitext2,maestro}` | `train_*`, `loss_*` functions | `TrainModel`, `EvalModel` | the networks (three of them in `NetModel`), devices, tokenisation, learning-rate schedules (inside the optimiser step) |
| `benchmark/models/MusicTransformer/utilities/run_model.py` | all | `TrainModel`, `EvalModel` | printing |
| `benchmark/models/nanoGPT/train.py`, `benchmark/datasets/{shakespeare_char,tinystories}`, `script/dattri_retrain_nanogpt.py` | batches, schedule, loop, checkpoints, driver | `NanoModel`, `DrvModel` (files left by sequences of calls) | the network, DDP, resuming, logging, gradient scaling; working directory and shell quoting in the driver, interruptions within one write |
| `params/projection.py`, `func/projection.py` 108-132, 1256-1398 (CPU), `algorithm/tracin.py` 57-258 with its projectors | settings, `random_project`, `attribute` | `ParamModel` | pydantic's numeric conversions, negative integers, CUDA (see `ProjModel`) |
| `script/dattri_retrain.py` | `partition_type`, `key_value_pair`, `main` | `CliModel` | negative partition entries, `indices=` as extra parameter, creation of the data set |
| `MusicTransformer/loss.py`, `utilities/lr_scheduling.py` | `SmoothCrossEntropyLoss`, `LrStepTracker` | `SmoothModel` | gradients, infinite logits, negative `vocab_size` |
| `nanoGPT/model.py` | `GPT.forward` with its blocks (eval mode), `crop_block_size`, `generate`, `get_num_params`, `configure_optimizers` groups | `GptModel` | dropout, initialisation, `from_pretrained`, AdamW itself, `estimate_mfu`, rounding |
| `nanoGPT/configurator.py`, `nanoGPT/train.py` 76-79, 94, `datasets/wikitext2/data.py` | settings, `group_texts` under `datasets.map(batched=True)` | `ConfModel` | `literal_eval`, execution of the file and the tokenizer (oracles), printing |
| `benchmark/load.py` | all | `LoadModel` | warnings, CUDA branch |
| `benchmark/datasets/cifar`, `maestro`, `models/MusicTransformer/dataset`, `midi_processor` | data preparation, codec | `DataModel`, `MidiModel` | file formats |

## 4a. How to read `seeded/LOG.jsonl`

Each line is one wrong program: one edit of a model definition, followed by a rebuild that goes on after errors in other
files but stops at the first error within a file.

* `first_failures`: the statements in which an error was actually seen, at most one per file.
* `theorems_failed`: the property theorems among them. This is all that was observed about property theorems.
* `theorems_not_rebuilt`: further theorems for the claim that stayed unbuilt, because an earlier statement of their file
  or a file they need failed. They were not checked one by one, and some may hold of the wrong program.

In most lines the first error is in a lemma, so `theorems_failed` is empty. Such a line shows that the proofs no longer go
through as written; it does not by itself show that the property theorem is false of the edited model. Earlier versions of
the log listed both groups under `theorems_failed`.

In 437 lines apart from those for C70 the errors seen were in lemmas only. For 217 of them the edit was on file in a form that
can be replayed; from these a random sample of 60 was to be rebuilt with the broken lemmas stubbed, and 12 were done before
the work ended. In 4 of the 12 a property theorem's own proof fails as well; in the other 8 no property
theorem fails by itself, but some for the claim use a stubbed lemma. None of the 12 left all theorems for its claim intact.
The rest have not been examined in this way.

The lines for `DrvModel` (C70) were made differently: each proof that failed was stubbed in the scratch copy and the build
continued, so every property theorem was reached. There `first_failures` lists all failing statements and `theorems_failed`
all property theorems whose own proof failed; `theorems_using_failed_lemma` replaces `theorems_not_rebuilt` and lists those
whose proof still went through but uses a stubbed one. A theorem in the last group is unproved for the wrong program, not
shown false of it.

## 5. Deviations of the code from its documentation found on the way

Each is a theorem (the property number in brackets).

* KNN-Shapley with more neighbours than samples is not a Shapley value [C01].
* `BaseInnerProductAttributor.self_attribute` is wrong for two or more batches [C04].
* Influence functions sum one inverse per training batch instead of inverting once [C13].
* EK-FAC applies the transposed eigenbasis in its last step [C16].
* GraSS projections depend on the call history [C20]; seeds of ensembles, blocks and layers collide above documented sizes [C23].
* `partial_param` overwrites the caller's dictionary [C25].
* Disk offload: overwriting a chunk is not atomic [C37]; re-caching another data set mixes in stale data [C42]; a failed cache poisons `attribute`, which silently drops the singular and all later layers [C43].
* Block-projected attributors: test gradients use cross entropy or `outputs.loss` and not the task's loss; metadata default to the current directory in memory mode; an equal number of batches with another last batch size raises or broadcasts; an empty test loader gives zeros sized by the passed loader [C41, C42].
* Compression: FactGraSS ignores the user's seed, batch size and type; LoGra ignores the type; without parameters there is no compressor and every batch fails; a sum-reduced loss is scaled by the batch size; LayerNorm layers get compressors but are skipped by the hooks [C44].
* Hooks: a failing session leaves the layers patched and later training silently gets no weight gradients; a layer run twice raises or uses the wrong input; a layer not reached returns the gradient of an earlier batch; two overlapping managers, or "A fails, B succeeds, A succeeds", break common layers for good; two disabled managers recurse [C45].
* Benchmarks: an interrupted first download is never repaired; redownload keeps old folders; a 404 gives empty lists; `wikitext2_gpt2` with `loo` cannot be loaded; `shakespeare_nanogpt` returns a string as model [C53].
* Music transformer: the END token is never sampled; beam search decodes candidates with width 390 instead of 388; mixing beam and sampling raises [C54].
* Benchmark losses: ImageNet's value depends on the batching; wikitext2 gives one value per batch; the music loss has the opposite sign; none of them can read what `retrain_loo` saves or what the leave-one-out reader passes [C55].
* Benchmark training: without a seed leave-one-out retraining always raises and subset retraining raises unless 64 random bits are below 2^32; the music function returns the last model, not the best; wikitext2 does not seed numpy's generator [C56].
* nanoGPT: evaluation consumes training batches and can starve training; the tail of `indices.txt` is never trained on; a last block without a following token raises in training and gets target 0 in attribution; the checkpoint of always_save_checkpoint misses the last updates; without a seed line all retrained models share one seed [C57].
* TracIn without `proj_params` is a random projection to 512 dimensions, and `proj_dim=None` is refused, so its branch without projection cannot be reached (`C58_always_projects`, `C58_default_exact_refuted`); the documented `grass_N` is refused; misspelt settings are ignored; `proj_dim=0` is accepted and fails with ZeroDivisionError.
* The retraining command: 12 of its 16 data set/model combinations are a KeyError; an end before the start can succeed without training (`C59_lds_reversed`); total 0 ignores the start; the default leave-one-out range exceeds the default `train_subset` (`C59_loo_default`); fractional `subset_ratio` always fails (`C59_ratio`); parts cannot be read back.
* Label smoothing: the default `ignore_index=-100` can never be used, since one_hot refuses it (`C60_default_ignore_refused`); one target for several rows turns the mean into a sum (`C60_one_target`).
* nanoGPT: with `n_layer=0` the head count is not checked (`C61_construct`); `generate` on an empty prompt or with `top_k=0` raises IndexError, with temperature 0 RuntimeError (`C61_generate_errors`); ties at the k-th logit are all kept, so more than `top_k` tokens can be drawn (`C61_generated`).
* Chunked store: a one-sample or one-layer batch read on the CPU before its chunk is flushed aliases the buffer and changes when it is recycled (`C62_view_recycled_refuted`); two unwaited saves of a preconditioner race, failed saves are only logged (`C62_prec_race_refuted`).
* `MLPMnist` regroups the entries of the whole batch: two half images are accepted as one image, which logistic regression refuses (`C67_mlp_shapes_refuted`).
* `ResNet9` in training mode: one small image raises ValueError with the statistics of the first layers already changed (`C67_failed_pass`), and rows depend on the other images (`C67_train_rows_refuted`).
* Influence functions: with several batches in the cached loader the explicit score is not minus the derivative of the retrained test loss, although it is with one batch (`C66_batches_refuted`).
* Tasks: a function over all parameters does not load the checkpoint it is requested for, so it uses buffers and frozen parameters of the one loaded last (`C64_unloaded_refuted`); with the documented `checkpoints_load_func` that returns a new model, buffers, frozen parameters and training mode of the user's model are used for every checkpoint (`C64_fresh_refuted`). An uncopied `model.state_dict()` in the list of checkpoints is overwritten by loading another one (`C65_live_refuted`); the tuple of `layer_split=True` is a view and changes with later loads (`C65_split_refuted`); tied names with different stored values give the last one (`C65_tied_refuted`); parameters changed by the user, or a replaced list entry, stay unnoticed until another index is asked for (`C65_current`).
* Training script: `--subset_ratio=0.5` is refused because the default is the integer 1, `dataset_path` cannot be given on the command line at all (`C63_refused`, `C63_needs_file`); WikiText: a too large block size raises TypeError instead of the warning (`C63_wiki_refused`).
* MIDI codec: velocities of silent gaps are lost and times drift [C46].
* Representer points: an extra factor 1/n, subset scaling, ignored bias, leaked hook on exceptions [C52].
* TRAK: `cache()` flattens the probability column, `attribute()` does not [C07].
* `IFAttributorArnoldi.cache` assigns into the first batch of the loader: batches that are tuples or dicts raise although
  the explicit attributor takes them, and a `precompute_data_ratio` of 0 raises IndexError (`C68_arnoldi_batches_refuted`).
* KNN-Shapley with more neighbours than training samples gives positive values to samples with another label (`C69_large_k_refuted`).
* nanoGPT retraining command: exit statuses of the preparation and of the trainings are ignored (`C70_status`); a failed
  download leaves an empty `input.txt` that later calls take for the text (`C70_failed_download_refuted`); `--data_file` has
  no effect after the first preparation and none for shakespeare_char (`C70_data_file_refuted`, `C70_data_file_ignored`);
  after an interrupted preparation it trains on mixed files (`C70_mixed_refuted`).
