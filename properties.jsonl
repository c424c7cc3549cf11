{"id": "C01", "title": "KNN-Shapley scores are exact Shapley values", "statement": "For k_neighbors <= number of training samples, KNNShapleyAttributor.attribute returns, for every test sample, the exact game-theoretic Shapley value of every training sample in the game whose utility of a coalition S is (1/K) times the number of the min(K,|S|) nearest members of S whose label equals the test label. With K larger than the training set the returned values are not the Shapley values.", "quantifier": "all training-set sizes n, all K between 1 and n, all distance orderings (ties broken in any way by the sort) and all label assignments", "why_tests_cant": "Shapley values average over all 2^(n-1) coalitions; a test can compare only a few small n and label patterns.", "anchors": ["dattri/algorithm/data_shapley.py:KNNShapleyAttributor.attribute"]}
{"id": "C02", "title": "KNN-Shapley does not depend on how the data are batched", "statement": "The matrix returned by KNNShapleyAttributor.attribute is the same for every batch size of the training and test loaders: the distance block of every pair of batches lands in the cells of exactly those samples, labels taken from the batches equal the data set's labels in order, and every row lists the scores of one test sample.", "quantifier": "all data sets, all positive train and test batch sizes (without drop_last), labels given or taken from batches", "why_tests_cant": "The number of (n_train, n_test, bs_train, bs_test) combinations including ragged last batches is unbounded.", "anchors": ["dattri/algorithm/data_shapley.py:KNNShapleyAttributor.attribute"]}
{"id": "C03", "title": "Inner-product attribution equals the checkpoint mean of pairwise inner products", "statement": "BaseInnerProductAttributor.attribute returns a matrix of shape (num_train,num_test) whose (i,j) entry is the mean over checkpoints of <train representation of i, transformed test representation of j> divided by the denominator of i; it does not depend on the batch sizes of the two loaders.", "quantifier": "all numbers of checkpoints, all train/test sizes and batch sizes, all per-sample representation functions", "why_tests_cant": "The running update out*=c; out+=block; out/=c+1 has to be right for every checkpoint count and block layout.", "anchors": ["dattri/algorithm/base.py:BaseInnerProductAttributor.attribute"]}
{"id": "C04", "title": "Self attribution of inner-product attributors agrees with the diagonal only for one batch", "statement": "BaseInnerProductAttributor.self_attribute equals the diagonal of attribute(train,train) when the loader yields a single batch; with two or more batches it either raises a shape error or, with batch size 1, returns the total self-influence in every entry.", "quantifier": "all data-set sizes, batch sizes and checkpoint counts", "why_tests_cant": "The defect is invisible for the single-batch loaders a unit test uses.", "anchors": ["dattri/algorithm/base.py:BaseInnerProductAttributor.self_attribute"]}
{"id": "C05", "title": "TracIn returns the weighted sum of gradient inner products over checkpoints", "statement": "TracInAttributor.attribute raises ValueError iff the numbers of checkpoints and weights differ; otherwise entry (i,j) is the sum over checkpoints of weight * <g_i,g_j> (of the normalised gradients when grad-cos is requested), with the same projection applied on both sides, independently of both batch sizes.", "quantifier": "all checkpoint lists, weight lists, data sizes, batch sizes, gradient functions", "why_tests_cant": "Block placement and accumulation must be right for all batch layouts and checkpoint counts.", "anchors": ["dattri/algorithm/tracin.py:TracInAttributor.attribute"]}
{"id": "C06", "title": "TracIn self-influence is the diagonal of attribute", "statement": "TracInAttributor.self_attribute returns, for every sample, the diagonal entry of attribute(train,train) when gradients are not normalised; with normalised gradients it returns the sum of weights, which differs from the diagonal exactly for samples with a zero gradient.", "quantifier": "all loaders, batch sizes, weights and gradients", "why_tests_cant": "Needs all batch layouts and the degenerate zero-gradient histories.", "anchors": ["dattri/algorithm/tracin.py:TracInAttributor.self_attribute"]}
{"id": "C07", "title": "TRAK cached and uncached attribution agree", "statement": "For the same training loader, cache(train) followed by attribute(test) returns exactly the matrix of attribute(test, train); giving a training loader after cache, or none without cache, raises ValueError. The result is mean_c(Phi_test (X'X+reg I)^-1 X') scaled per train sample by mean_c(Q), transposed, and does not depend on the batch sizes.", "quantifier": "all checkpoint counts, data sizes, batch sizes, histories of cache/attribute calls", "why_tests_cant": "Agreement is between two separately written loops over an unbounded number of checkpoints and batches.", "anchors": ["dattri/algorithm/trak.py:TRAKAttributor.cache", "dattri/algorithm/trak.py:TRAKAttributor.attribute"]}
{"id": "C08", "title": "DataInf's per-layer transform is the average of exact rank-one damped inverses", "statement": "For every layer, DataInf's transform of a test gradient v equals the average over training gradients g of (g g' + reg I)^-1 v, exactly, for reg > 0, and does not depend on the chunking of training gradients; with reg = 0 it divides by zero.", "quantifier": "all layer sizes, numbers of training gradients, chunk sizes, reg > 0", "why_tests_cant": "The Sherman-Morrison closed form must hold for all dimensions and gradients.", "anchors": ["dattri/algorithm/influence_function.py:IFAttributorDataInf"]}
{"id": "C09", "title": "Explicit iHVP solves the damped system exactly", "statement": "ihvp_explicit / ihvp_at_x_explicit return x with (H + reg I) x = v for every batch of vectors v whenever the damped Hessian is invertible, row by row, and hvp(v) = H v + reg v is linear in v and identical in rev-rev and rev-fwd mode.", "quantifier": "all dimensions, all symmetric Hessians, all vectors and reg", "why_tests_cant": "Statement over all matrices.", "anchors": ["dattri/func/hessian.py:ihvp_explicit", "dattri/func/hessian.py:hvp"]}
{"id": "C10", "title": "Conjugate-gradient iHVP: residual invariant, conjugacy and finite termination", "statement": "For a symmetric positive definite damped Hessian in exact arithmetic, after every iteration of ihvp_cg the tracked residual is v - H x, search directions are H-conjugate, and within at most dim iterations the returned vector solves H x = v; because tol is never consulted, running past the exact solution divides 0 by 0 and returns NaN (e.g. H = I fails in the first iteration).", "quantifier": "all dimensions, all SPD matrices, all vectors, all max_iter", "why_tests_cant": "Finite termination and conjugacy are statements over all matrices and iteration counts.", "anchors": ["dattri/func/hessian.py:ihvp_at_x_cg"]}
{"id": "C11", "title": "LiSSA computes the truncated Neumann series", "statement": "With a full batch, ihvp_lissa(recursion_depth=T, damping=d, scaling=s) returns (1/s) sum_{k<=T} ((1-d)I - H/s)^k v for every repeat, hence (H + d s I) result = v - ((1-d)I - H/s)^(T+1) v; batches drawn per step consist of distinct samples. ihvp_at_x_lissa swaps batch_size and num_repeat.", "quantifier": "all dimensions, Hessians, depths T, repeats, damping and scaling <> 0", "why_tests_cant": "Closed form must hold for all depths; argument swap is only visible when the two values differ.", "anchors": ["dattri/func/hessian.py:ihvp_lissa", "dattri/func/hessian.py:ihvp_at_x_lissa"]}
{"id": "C12", "title": "Arnoldi basis is orthogonal", "statement": "The Krylov vectors built by the Arnoldi iteration are orthonormal for norm_constant = 1 at every iteration count, the recorded coefficients reproduce H q_n = sum_j h_jn q_j, and early stopping happens only when the next residual is below tol; with norm_constant <> 1 orthogonality to the start vector is lost.", "quantifier": "all dimensions, matrices, start vectors and iteration counts", "why_tests_cant": "Gram-Schmidt orthogonality for all steps.", "anchors": ["dattri/func/hessian.py:ihvp_at_x_arnoldi", "dattri/func/projection.py:ArnoldiProjector"]}
{"id": "C13", "title": "Influence functions sum one inverse per training batch", "statement": "IFAttributorExplicit's transformed test representation is the sum over batches of the full training loader of the batch-wise damped inverse applied to the test gradient; it equals the inverse of the whole-data Hessian for a single batch and depends on the batch size in general.", "quantifier": "all loaders and batch sizes", "why_tests_cant": "Dependence on batching appears only across different batch sizes.", "anchors": ["dattri/algorithm/influence_function.py:IFAttributorExplicit.transform_test_rep"]}
{"id": "C14", "title": "relatIF denominators are never zero", "statement": "Every denominator used by relatIF (method l or theta) is strictly positive, so attribute never divides by zero, including for zero gradients and negative curvature; any other method name raises ValueError.", "quantifier": "all gradients and transformed gradients", "why_tests_cant": "Includes degenerate and adversarial values.", "anchors": ["dattri/algorithm/influence_function.py:_compute_denom"]}
{"id": "C15", "title": "EKFAC covariance and lambda statistics do not depend on batching", "statement": "After processing any sequence of batches the running covariance and eigenvalue statistics equal the plain average over all samples seen, for 2-D activations; max_iter=m>0 uses exactly the first m batches, max_iter=0 uses all.", "quantifier": "all sequences of batches of all sizes", "why_tests_cant": "Running weighted averages over unbounded histories.", "anchors": ["dattri/func/fisher.py:estimate_covariance", "dattri/func/fisher.py:estimate_lambda", "dattri/func/fisher.py:_update_covariance"]}
{"id": "C16", "title": "EKFAC preconditioner inverts its own damped operator but not in the eigenbasis", "statement": "The EKFAC test transform applies the exact inverse of v -> Qs'((lambda+damping) o (Qs v Qa'))Qa for orthogonal Qs,Qa, but since the eigenvector matrices are used transposed it is not the inverse of the damped Kronecker-factored curvature even when that curvature is exactly Kronecker.", "quantifier": "all layer sizes, orthogonal eigenvector matrices, lambda >= 0, damping > 0", "why_tests_cant": "All orthogonal matrices.", "anchors": ["dattri/algorithm/influence_function.py:IFAttributorEKFAC", "dattri/func/fisher.py:_update_lambda"]}
{"id": "C17", "title": "DVEmb embeddings are the unrolled-SGD product formula", "statement": "After any history of recordings, clears and earlier cache() calls, cache() stores for every recorded epoch e and sample j the sum, over j's occurrences in e, of eta*g propagated through all later recorded steps by v -> v - eta_k sum_r <v,g_r> g_r (eta = learning rate / batch size); attribute returns its inner product with the test gradients, for one epoch or summed over the recorded epochs.", "quantifier": "all training schedules (epochs, steps, batch sizes, repeated samples), gradients, learning rates, recording modes and test sets", "why_tests_cant": "The recursion has to be right for every number of steps and every order of index repetitions.", "anchors": ["dattri/algorithm/dvemb.py:DVEmbAttributor.cache", "dattri/algorithm/dvemb.py:DVEmbAttributor.attribute"]}
{"id": "C18", "title": "DVEmb lifecycle", "statement": "attribute raises RuntimeError until cache() has produced embeddings and ValueError for an epoch never embedded; cache() raises ValueError when nothing is recorded and KeyError when epoch 0 was not recorded; clear_cache empties recordings but keeps embeddings; recorded rows always match the indices recorded with them. A step that fails inside the context manager is still recorded; external gradients are unusable on an attributor without recordings and the caller's dictionaries are emptied on success; embeddings of epochs missing from a later run keep answering.", "quantifier": "all sequences of calls", "why_tests_cant": "All call sequences.", "anchors": ["dattri/algorithm/dvemb.py"]}
{"id": "C19", "title": "CPU random projection is a fixed linear map per (seed, ensemble, dimensions)", "statement": "For rademacher/normal projections BasicProjector.project returns the same result for the same features, seed and ensemble id whatever was projected before (single block or many blocks), is linear, acts on each row independently: column j is feature . column j of a matrix fixed by seed, ensemble and dimensions / sqrt(proj_dim). The only exception is a single-block projector whose memory was freed while its ensemble was current: projecting that ensemble again raises AttributeError. random_mask selects min(proj_dim, feature_dim) distinct coordinates in increasing order.", "quantifier": "all histories of project calls with all ensemble ids, all dimensions and features", "why_tests_cant": "History independence ranges over all call sequences.", "anchors": ["dattri/func/projection.py:BasicProjector"]}
{"id": "C20", "title": "GraSS projection depends on call history", "statement": "Every CudaProjector type except grass projects an ensemble in the same way whatever was projected before. A grass projector does so only while proj_dim*multiplier <= feature_dim: otherwise the first ensemble used goes through all feature_dim coordinates and every later one through only proj_dim*(feature_dim//proj_dim) of them, so that with feature_dim < proj_dim every later ensemble is projected to zero.", "quantifier": "all dimensions, multipliers and call sequences", "why_tests_cant": "Only multi-call histories show it.", "anchors": ["dattri/func/projection.py:CudaProjector._gen_randomness_grass"]}
{"id": "C21", "title": "Parameter chunking is a partition within the kernel limit", "statement": "get_parameter_chunk_sizes returns chunk sizes that sum to the total number of parameters, each positive and at most the maximum (2^32-1)//(2*batch_size), and terminates whenever that maximum is positive; when it is zero it never terminates on a non-empty model.", "quantifier": "all parameter shape lists and batch sizes", "why_tests_cant": "Needs billions of parameters and all layouts.", "anchors": ["dattri/func/utils.py:get_parameter_chunk_sizes"]}
{"id": "C22", "title": "Chunked projection of a dict of gradients agrees with projecting the flat vector", "statement": "ChunkedCudaProjector.project is the sum of per-chunk projections; dict_project gives the same result as projecting the concatenated gradients, whatever was projected before and with stale buffer rows, unless some parameter exceeds the maximum chunk size or two or more parameters fill a chunk exactly; in those cases it raises ValueError or RuntimeError although project accepts the same data flattened.", "quantifier": "all parameter layouts, chunk maxima and batch sizes up to the declared one, all earlier calls (stale buffer contents)", "why_tests_cant": "Buffer reuse makes the result potentially history dependent; boundary equality needs exact layouts.", "anchors": ["dattri/func/projection.py:ChunkedCudaProjector.dict_project"]}
{"id": "C23", "title": "Projection seeds separate ensembles, blocks and layers only below documented sizes", "statement": "Seeds used for different blocks of one projector are distinct; seeds of different (ensemble, block) pairs are distinct while a projector has at most 100 blocks and collide beyond; layer seeds of the two-stage compressor collide with a neighbouring layer's block seeds once a projector has more than 10 blocks and the projector stage reuses the second sparsifier's seed.", "quantifier": "all seeds, ensemble ids, block counts, module ids", "why_tests_cant": "Arithmetic statement over all integers.", "anchors": ["dattri/func/projection.py:BasicProjector", "dattri/algorithm/block_projected_if/core/compressor.py:setup_model_compressors"]}
{"id": "C24", "title": "Flattening and unflattening parameters round-trips", "statement": "_unflatten_params(flatten_params(p)) restores every trainable parameter of every model, in order, and a flatten_func-wrapped function applied to the flat vector (or the tuple of per-parameter vectors) equals the original function on the dict; unflattening any vector succeeds exactly if it has at least as many elements as the model (surplus ignored); a partial_param-wrapped function over fresh parameters equals the full function with exactly the named layers replaced, in the order of the names.", "quantifier": "all models (numbers and sizes of parameters), all layer selections without repetitions, in any order", "why_tests_cant": "Unbounded layouts.", "anchors": ["dattri/func/utils.py:flatten_params", "dattri/func/utils.py:_unflatten_params", "dattri/func/utils.py:flatten_func", "dattri/func/utils.py:partial_param"]}
{"id": "C25", "title": "partial_param overwrites the caller's parameter dict", "statement": "After any history of evaluations of partial functions through one dict, an evaluation sees, for each layer it does not name, the last value any earlier evaluation passed for it. So history is harmless exactly in the direction one expects: if earlier evaluations named only layers named now, or were made at the original values; otherwise results change. One evaluation with too short an argument makes every later evaluation raise.", "quantifier": "all histories of evaluations through one shared dict", "why_tests_cant": "Hidden state across calls.", "anchors": ["dattri/func/utils.py:partial_param", "dattri/task.py:AttributionTask.get_grad_loss_func"]}
{"id": "C26", "title": "AttributionTask loads the requested checkpoint before exposing parameters", "statement": "As long as layer-restricted functions are evaluated at their own checkpoint's values, after every history of requests and evaluations get_param(c, ...) returns checkpoint c's parameters (with exact exceptions, layer selection and layer map), and every function requested for checkpoint c and layers l - memoised or not - is the user's function at checkpoint c with exactly the layers l replaced, differentiated with the requested in_dims; functions over all parameters are right after any history whatsoever. Evaluations elsewhere leak into get_param and into functions over other layers; a function kept across an in-place load takes the other layers of the newly loaded checkpoint; a checkpoint that fails to load leaves a mixture that is returned for the previous index; a string layer_name selects single characters and raises.", "quantifier": "all models, checkpoint lists, loading functions (in place or new object), histories of get_param / get_grad_* / get_*_func calls and evaluations", "why_tests_cant": "History quantification.", "anchors": ["dattri/task.py:AttributionTask"]}
{"id": "C27", "title": "LDS metric compares group-summed scores", "statement": "lds predicts, for every subset and test sample, the sum of the scores of exactly the subset's members, and its result for a test sample only depends on that sample's column; the result is the Spearman correlation (mean ranks for ties, nan iff predictions or ground truth are constant), lies in [-1,1], is 1 (or -1) exactly when predictions order the subsets as (oppositely to) the ground truth, depends on order only, and is unchanged by positive rescaling and a per-test-sample shift of the scores; exceptions are exact. loo_corr pairs score and ground-truth rows by position and ignores the removed indices, so ground truth for a strict subset of the samples raises ValueError.", "quantifier": "all score matrices, subset collections, test sizes", "why_tests_cant": "All subsets.", "anchors": ["dattri/metric/metrics.py:lds", "dattri/metric/metrics.py:loo_corr"]}
{"id": "C28", "title": "Mislabel-detection AUC is the pairwise ranking probability", "statement": "mislabel_detection_auc's area equals the fraction of (noisy, clean) sample pairs in which the noisy one is ranked earlier by the descending score order; it lies between the strict and the weak Mann-Whitney statistic whatever the tie-breaking, and equals both without noisy-clean ties; it is 1 exactly for perfect separation; the ROC lists start at 0, end at 1 and are monotone; with no noisy or no clean sample it raises ZeroDivisionError.", "quantifier": "all score vectors, all sets of noisy indices, all tie orders", "why_tests_cant": "Trapezoid sums over all rankings.", "anchors": ["dattri/metric/metrics.py:mislabel_detection_auc"]}
{"id": "C29", "title": "Brittleness returns the first flipping removal size", "statement": "brittleness returns the first k in the search space for which retraining without the k highest-scored training samples changes the prediction, None iff none does; it is the smallest such k when the search space is ascending; each retraining sees exactly the sampler's indices minus the top-k score positions (so index lists other than 0..n-1 remove the wrong samples); only the last test batch's label counts; scores of the documented 2-d shape raise TypeError at the first k that removes anything, tensor-valued sampler indices remove nothing, and a sampler without indices raises AttributeError.", "quantifier": "all score vectors, search spaces, retraining outcomes", "why_tests_cant": "Quantifies over all outcomes of retraining.", "anchors": ["dattri/metric/britteness.py"]}
{"id": "C30", "title": "LDS retraining is reproducible and parallelisable", "statement": "A successful retrain_lds call leaves, for every subset i of the job, the index list drawn from seed+i and one checkpoint per run trained on it with a seed that is different for every (subset, run); no other directory changes; the caller's global generator is irrelevant; exactly the valid argument combinations are accepted. For training functions that depend only on data and seed, any collection of jobs of one experiment (any order, sizes, overlaps, earlier contents) gives each subset the same contents as one big job; for functions drawing from the global generator it does not. Positions refer to the data set, so a sampler selecting other samples is ignored.", "quantifier": "all seeds, job splits, subset counts, run counts", "why_tests_cant": "All splits and seeds.", "anchors": ["dattri/model_util/retrain.py:retrain_lds"]}
{"id": "C31", "title": "LDS ground truth reads back what retraining wrote", "statement": "After a successful complete retrain_lds call on any file system calculate_lds_ground_truth returns for every subset the negated mean target value of its checkpoints and its index list (nan with zero runs); a later job (start_id > 0) that writes metadata makes reading raise KeyError; the documented multi-job use is never readable (KeyError or FileNotFoundError, decided by divisibility); a moved directory is unreadable; after an interrupted second job the reader silently mixes both.", "quantifier": "all subset/run counts, target functions, job splits", "why_tests_cant": "Round trip through a directory tree for all sizes.", "anchors": ["dattri/model_util/retrain.py:retrain_lds", "dattri/metric/ground_truth.py:calculate_lds_ground_truth"]}
{"id": "C32", "title": "LOO retraining and ground truth round-trip in numeric index order", "statement": "After any history of retrain_loo calls into one directory calculate_loo_ground_truth returns, in increasing numeric order, every index ever requested with the target values of the model last trained on all positions but that index; without indices the rows are 0..n-1; an index that is not a position is trained on everything but reported as removed; a raising training call leaves a directory that makes the reader raise FileNotFoundError; a non-numeric index_ directory makes it raise ValueError; a target returning one value for several test samples is repeated, any other wrong length raises RuntimeError.", "quantifier": "all index lists (any order), data sizes, earlier contents of the directory", "why_tests_cant": "File-system histories and lexicographic-versus-numeric ordering.", "anchors": ["dattri/model_util/retrain.py:retrain_loo", "dattri/metric/ground_truth.py:calculate_loo_ground_truth"]}
{"id": "C33", "title": "Label flipping changes exactly the reported samples", "statement": "flip_label never modifies an existing tensor; it succeeds exactly when 1 <= int(p*n) <= n, the first drawn label is not the only label of the space and the labels are an int64 tensor (ValueError, AttributeError for arrays, RuntimeError for other dtypes otherwise); on success it reports int(p*n) distinct positions, the new tensor differs from the old one only there, and each new label differs from the old one and comes from the label space or from the labels of the reported positions. A label space given as a torch tensor does not exclude the old label; a label outside a given space enlarges it for later flips.", "quantifier": "all label lists, fractions p, label spaces and random choices", "why_tests_cant": "All random outcomes.", "anchors": ["dattri/benchmark/utils.py:flip_label"]}
{"id": "C34", "title": "Dropout activation touches exactly the selected dropout layers", "statement": "After activate_dropout, exactly the Dropout* modules picked by the list (all of them for an empty list, otherwise those whose name contains a listed string) have the given probability, exactly they and their submodules are in training mode, whatever the previous modes; ValueError is raised exactly when a listed string occurs in the name of a non-dropout module, after the model has been modified; names occurring nowhere are silently ignored; AlphaDropout layers are missed.", "quantifier": "all module lists, name lists, dropout probabilities", "why_tests_cant": "All module trees and names.", "anchors": ["dattri/model_util/dropout.py:activate_dropout"]}
{"id": "C35", "title": "Memory and CPU offload stores behave as a map from batch to per-layer gradients", "statement": "After any history of store, preconditioner and clear calls, retrieving a batch returns the per-layer tensors last stored for it, zero-filled and repeated as assignment broadcasting does, cut to the widths fixed by the first batch ever stored, and empty tensors if none; a store fails with AttributeError when a gradient is None and with RuntimeError when a gradient fits neither the batch nor its layer width, and a failed store leaves the stored batches unchanged; a layer that is empty in the first batch keeps width 0, so its later gradients are lost or rejected; the gradient dataloader enumerates every stored batch of the requested range once, in index order, with row ranges that address its rows.", "quantifier": "all histories of store/retrieve/clear calls, layer dimensions, batch sizes, loader batch sizes and batch ranges", "why_tests_cant": "Histories and layouts are unbounded.", "anchors": ["dattri/algorithm/block_projected_if/offload/memory.py", "dattri/algorithm/block_projected_if/offload/cpu.py"]}
{"id": "C36", "title": "Disk offload returns what was stored, under every writer schedule", "statement": "For any number of processes one after the other on a directory, each storing batches within ranges, each batch once and with at most max_samples_per_chunk samples per chunk, and for every interleaving of the storing thread with any number of write workers: gradient stores are never refused, every accepted batch is in exactly one file, the storing manager and any later manager read it back exactly (layers of width 0 come back as empty tensors), and batches never stored read as empty tensors. Finishing a range always returns after boundedly many worker steps. At every moment, also with overflowing chunks, a read gives the stored batch or empty tensors, never a mixture. Exceptions, each exhibited: with an overflowing chunk, finishing returns while a write is queued and the batch reads as empty; a batch without samples makes finishing hang for ever; a batch stored twice in a range keeps its first value; a batch stored again later is read stale from the read cache; clearing leaves the read cache and unwritten buffers; a chunk being written reads as empty.", "quantifier": "all batch sequences, chunk sizes, interleavings of the storing thread and the writers", "why_tests_cant": "Thread schedules cannot be enumerated by tests.", "anchors": ["dattri/algorithm/block_projected_if/offload/disk_io/manager.py:ChunkedDiskIOManager"]}
{"id": "C37", "title": "A crash never exposes a partially written new chunk, but overwriting is not atomic", "statement": "If the process dies at any step of any execution that stores each batch once, a new manager on the directory reads for every batch either exactly what was stored, or empty tensors when no complete file has the batch and no metadata file is truncated, or raises ValueError; batches finished by earlier processes stay in their files and are read exactly unless a metadata file of the kind is truncated; while one is truncated, reading a batch in no complete file raises ValueError, and even a batch in a complete file can be unreadable. Storing a batch again is not atomic: a crash after the file is re-created makes the read return zeros under the old metadata.", "quantifier": "all crash points in all sequences of chunk writes", "why_tests_cant": "Crash points.", "anchors": ["dattri/algorithm/block_projected_if/offload/disk_io/memory_map.py:ChunkedMemoryMapHandler.write_chunk"]}
{"id": "C38", "title": "Batch metadata partitions the samples and survives crashes", "statement": "Whatever a metadata directory contains and however its manager was used, after save_metadata the sample ranges of the known batches are consecutive in batch order and each of the total samples lies in exactly one of them; on a fresh directory initialize_complete_dataset gives batch b exactly the positions of the loader's b-th batch; reopening a saved directory gives back the same ranges, total, layer names and dimensions; a crash at any point of save_metadata leaves a directory that opens like the old or like the new one; re-initialising with a loader having the same number of batches keeps the old ranges, and with fewer batches keeps the extra old batches after the new ones.", "quantifier": "all loaders (size, batch size, drop_last), all crash points, all histories of initialisations", "why_tests_cant": "Crash points and histories.", "anchors": ["dattri/algorithm/block_projected_if/core/metadata.py:MetadataManager"]}
{"id": "C39", "title": "Prefetching is transparent under every schedule", "statement": "Whatever the interleaving of the prefetch thread and the consumer, whatever is loaded and evicted, indexing the prefetch dataset returns exactly what loading that chunk directly returns (IndexError out of range). Over a finished directory the loader yields items of the full width which together contain every accepted batch of the kind in the requested range exactly once with its rows, for every batch size and listing order. The chunks come in the order of their file names as strings: chunk 10 before chunk 1.", "quantifier": "all schedules, prefetch factors, chunk counts, access sequences", "why_tests_cant": "Schedules.", "anchors": ["dattri/algorithm/block_projected_if/offload/disk_io/prefetch_dataset.py"]}
{"id": "C40", "title": "Collating chunks preserves batch rows", "statement": "For every batch listed in any of the collated disk chunks the combined mapping addresses exactly that batch's rows in the combined tensor (the last chunk listing it wins); chunks of different widths, or no chunk at all, raise RuntimeError; the collation of the in-memory loaders ignores the start row of an entry, which is harmless only because its items hold one batch each.", "quantifier": "all lists of chunks with distinct batch ids and valid row ranges", "why_tests_cant": "All layouts.", "anchors": ["dattri/algorithm/block_projected_if/offload/disk_io/prefetch_dataset.py:async_collate_fn", "dattri/algorithm/block_projected_if/offload/cpu.py", "dattri/algorithm/block_projected_if/offload/memory.py"]}
{"id": "C41", "title": "Block-projected influence scores do not depend on batch sizes, on the offload mode or on the chunking", "statement": "For a fresh attributor whose hooks give the per-sample layer gradients, attribute after cache(L) returns for train sample i and test sample j the sum over layers of g_i M_l h_j, with M_l the identity (Identity) or the inverse of the damped empirical Fisher matrix of the cached samples (eFIM). The training loader passed to attribute is ignored once something is cached; without cache the first attribute call caches it. Every later attribute and compute_self_attribution call agrees, whatever calls come in between. The loader batch sizes do not matter. With offload=disk the same scores result from the chunked files for every schedule of the background writers, every order in which the directory is listed, every chunk size, and every loader batch size. An empty test loader gives zeros sized by the training loader of that call; an empty training loader makes cache raise StopIteration.", "quantifier": "all layer counts, data sizes, batch sizes, chunk sizes, offload modes", "why_tests_cant": "All layouts.", "anchors": ["dattri/algorithm/block_projected_if/block_projected_if.py:BlockProjectedIFAttributor"]}
{"id": "C42", "title": "Re-caching another data set mixes in stale data", "statement": "Exact result of every legal history of cache, attribute and compute_self_attribution calls on one attributor in memory mode: the state is the list of stored batches (a cache call overwrites the batches with its indices and keeps the others) and the batches whose preconditioned gradients were computed last. In particular, with hessian=Identity, cache(A), attribute, cache(B), attribute returns A's scores again; with eFIM, batches of A with indices beyond B's stay in the store, enter B's preconditioner and get rows in the score matrix.", "quantifier": "all pairs of data sets and call histories", "why_tests_cant": "Histories.", "anchors": ["dattri/algorithm/block_projected_if/block_projected_if.py:BlockProjectedIFAttributor.cache"]}
{"id": "C43", "title": "The damped covariance is invertible when some gradient is non-zero; a failed cache poisons attribute", "statement": "For every gradient matrix with a non-zero row and damping > 0 the matrix inverted for a layer is symmetric positive definite and its inverse is a true inverse, so cache then attribute succeed when every layer has a sample with a non-zero gradient. If all gradients of a layer vanish, the trace-relative damping vanishes too and cache raises. After a cache call failed at the first singular layer, attribute does not fail: it silently returns scores computed without that layer and all later ones.", "quantifier": "all gradient matrices and dimensions", "why_tests_cant": "All matrices.", "anchors": ["dattri/algorithm/block_projected_if/core/utils.py:stable_inverse", "dattri/algorithm/block_projected_if/block_projected_if.py:compute_preconditioners"]}
{"id": "C44", "title": "Two-stage compression equals one linear projection of the exact per-sample gradient", "statement": "For a Linear layer, after any history of batches, the compressed gradient of every sample equals P (P1 (x) P2) vec(G), where P1, P2 and P are fixed matrices given by the seeds, the number of the module in named_modules() and the dimensions, and G is the exact gradient of batch_size times the loss with respect to weight and bias (bias as last input column), summed over the positions of a sequence; with identity projections it is the flattened exact gradient. Hence with a mean-reduced loss the row of a sample is the same in every batch, and with a sum-reduced loss it grows in proportion to the batch size. A layer that is named, Linear and reached by the sample batch gets its compressor exactly when both parameters can be realised on the CPU; layers not reached get none; setup_model_compressors called with only one of sparsifier and projector parameters raises AttributeError, and with neither it makes no compressors, so that every gradient of a hooked layer raises. LoGra needs a square dimension and FactGraSS a square dimension times blow-up (else ValueError); rows then have exactly the dimension asked for; FactGraSS uses neither the seed nor the type the user gave.", "quantifier": "all layer sizes, batch sizes, sequence lengths, linear projections", "why_tests_cant": "All tensors.", "anchors": ["dattri/algorithm/block_projected_if/core/compressor.py:Compressor.forward", "dattri/algorithm/block_projected_if/core/hook.py:_compute_compressed_grad"]}
{"id": "C45", "title": "Hooks are removed after every successful call and leak after a failing one", "statement": "For any number of attributors on one model and any history of their cache/attribute sessions and the user's training steps, as long as nobody starts a session while another attributor's failed session is pending: with no failed session pending every layer has its original forward and the registry is empty; otherwise exactly the named Linear layers of the attributor that failed last are patched, and training steps run without error but give those layers no weight gradient; that attributor's next successful session restores everything. A session succeeds exactly when in every batch the loss and the storing succeed and every hooked layer is reached by at most one output gradient that its compressor accepts (a layer reached twice in a batch raises). The gradient reported for a layer after a batch is the compressed gradient of the last batch that reached it, computed with the last input of the layer in that batch: the exact one when the layer runs once in every batch, a stale or mismatched one otherwise. Out of turn it breaks: when A fails, B succeeds and A succeeds on retry, every layer both hook raises RuntimeError in every later forward pass, whatever successful sessions follow; likewise for two hook managers attached to a layer and removed in either order. A disabled manager leaves training unchanged; two disabled ones on one layer recurse without end.", "quantifier": "all histories of attach/detach and failures", "why_tests_cant": "Exception points and interleavings.", "anchors": ["dattri/algorithm/block_projected_if/core/hook.py:HookManager"]}
{"id": "C46", "title": "MIDI codec: vocabulary bijection, exact round trip on clean notes, drift, lost velocities, pedal counts", "statement": "Event.to_int and Event.from_int are mutually inverse on the 388-token vocabulary. The time shifts emitted for an interval are in the vocabulary and add up to the interval rounded to hundredths. Encoding notes with MIDI-range pitches and velocities always gives tokens of the vocabulary. The decoded stream starts and ends the same notes in the same order, with the k-th time off by at most k/200 s (errors accumulate). On notes at hundredths, no two of one pitch overlapping and no velocity a quarter of another, decoding an encoding gives the notes back with velocities rounded down to multiples of 4. The second of two overlapping notes gets the velocity of the first when the first velocity is a quarter of the second. If successive starts and ends are at most 5 ms apart every note is lost. With the sustain pedal: notes that start up to the last release before the last onset come out once; later notes come out once per remaining release (none: lost; two: duplicated); a file without a pedal release encodes to nothing; starts, pitches and velocities are kept and a note in a closed span is held to the next note of its pitch or to the release.", "quantifier": "all tokens, intervals and note sequences", "why_tests_cant": "All sequences.", "anchors": ["dattri/benchmark/models/MusicTransformer/midi_processor/processor.py"]}
{"id": "C47", "title": "Sliding-window data sets yield exactly the full windows, and accuracy ignores padding", "statement": "With full_version, for all file lengths, window sizes and strides, construction succeeds (its internal assertion never fails), len() is the total number of full-window offsets of the files, and the items are in order the windows of max_seq tokens and their targets shifted by one, without padding; the window at offset 0 is at a random position when random_seq is set; an index past the end is a KeyError. Every token but the last stride-1 ones is in some window; files of at most max_seq tokens are dropped silently. Without full_version there is one item per file, padded with end and pad tokens when short. The accuracy is over the positions whose target is not padding, and undefined if there are none.", "quantifier": "all file lengths, max_seq, strides", "why_tests_cant": "All lengths.", "anchors": ["dattri/benchmark/models/MusicTransformer/dataset/e_piano.py"]}
{"id": "C48", "title": "Backtracking line search terminates and never accepts an increasing step above the floor", "statement": "For every objective, including one returning infinities or NaN, the search ends after at most 38 evaluations. The step is the first of 10/2^k at which the no-decrease test fails, or the first below 1e-10. The accepted point lowers the objective by at least t|g|^2/2 unless the floor was reached. A NaN objective is accepted at once at step 10. For a smooth objective with curvature L below 2^36/10 and a nonzero gradient the search returns a strict decrease with a step that is 10 or at least 1/(2L).", "quantifier": "all objective functions and gradients", "why_tests_cant": "Adversarial objectives.", "anchors": ["dattri/algorithm/utils.py:backtracking_line_search"]}
{"id": "C49", "title": "Random batches partition the samples; LiSSA draws distinct samples", "statement": "The random batch iterator yields batches that partition the samples for every permutation drawn: every sample in exactly one batch, all batches but the last of the requested size clamped to the number of samples; zero samples or batch size zero is a ZeroDivisionError. A LiSSA draw has distinct samples, min(batch size, number of samples) of them. The input size check returns the common length of the mapped inputs, raises IHVPUsageError if two differ, and gives 1 without mapped inputs.", "quantifier": "all sample counts, batch sizes and permutations", "why_tests_cant": "All permutations.", "anchors": ["dattri/func/fisher.py:_random_batch_iterator", "dattri/func/hessian.py:_sample_random_batch"]}
{"id": "C50", "title": "CIFAR-2 construction selects and relabels exactly cats and dogs", "statement": "get_cifar2_indices_and_adjust_labels returns in order exactly the indices labelled 3 or 5, relabels them 0 and 1 and leaves all other labels unchanged; the resulting subset holds exactly the cats and dogs in order with labels 0 and 1. A second call on the same data set selects nothing and changes nothing, so building twice from one object gives an empty data set.", "quantifier": "all label lists", "why_tests_cant": "All label lists.", "anchors": ["dattri/benchmark/datasets/cifar/data.py:get_cifar2_indices_and_adjust_labels"]}
{"id": "C51", "title": "DVEmb factorised gradients are fixed linear images of the exact weight gradient", "statement": "With factorization and no projection the reconstructed row is, layer by layer, the flattened weight gradient (sum over positions of output gradient times input) followed by the bias gradient; with kronecker or elementwise projection every coordinate is the same fixed linear form of the weight gradient for every sample, the bias gradient does not enter, and 2-d and 3-d inputs use transposed coordinates.", "quantifier": "all layer lists, dimensions, sequence lengths and projector matrices", "why_tests_cant": "All layer shapes and sequence lengths.", "anchors": ["dattri/algorithm/dvemb.py:DVEmbAttributor._reconstruct_gradients", "dattri/algorithm/dvemb.py:DVEmbAttributor._project_gradients_factors_kronecker", "dattri/algorithm/dvemb.py:DVEmbAttributor._project_gradients_factors_elementwise"]}
{"id": "C52", "title": "Representer point selection computes its documented identity up to a factor 1/n", "statement": "rps_finetune_theta raises UnboundLocalError exactly with no epochs or when the first mean absolute gradient is at least 10000; otherwise it returns the first visited iterate with the smallest mean absolute gradient, and stops once that is below 1/200 of the first. The gradient it follows is the gradient of the stated objective. At a stationary point the representer weights satisfy sum_i alpha_i x_i = theta/n, so column sums of the score table equal the test logits divided by n, not the logits. Every score is alpha_ij times the feature inner product; attributing a k-sample subset without cache scales the weights by n/k (sum reduction) or (n/k)^2 (mean). Normalised scores do not change when features are scaled. Uncached calls behave as on a fresh attributor; after caching only the last successful cache matters; a failed cache leaves the attributor marked as cached, so the next call answers from the previous layer or raises AttributeError.", "quantifier": "all data sets, epochs, objectives and call histories", "why_tests_cant": "All optimisation runs and histories.", "anchors": ["dattri/algorithm/rps.py:RPSAttributor", "dattri/algorithm/utils.py:rps_finetune_theta", "dattri/algorithm/utils.py:get_rps_weight", "dattri/model_util/hook.py:get_final_layer_io"]}
{"id": "C53", "title": "Predefined benchmarks load what was published and nothing else, but a broken first download sticks", "statement": "A combination other than the six documented ones is a ValueError that writes nothing. After a download the returned ground truth is the published file of the metric, the samplers have the documented sizes, and the model lists name the folders 0..n-1 where n counts the folders now in the cache; all these paths exist exactly when the folders are up to order 0..n-1, each with its weights. Once the directory of a setting exists, calls without redownload neither change it nor depend on the server or on calls for other settings. A first call that breaks off at one of the first three files leaves a directory that no later call without redownload can load. redownload=True keeps folders of an older release, so the count can be too large. A missing archive (404) gives an empty list instead of an error. The leave-one-out truth of wikitext2_gpt2 can never be loaded. shakespeare_nanogpt returns the model name and no functions.", "quantifier": "all server behaviours, cache contents and call histories", "why_tests_cant": "All server failures and call histories; the network is not available in tests.", "anchors": ["dattri/benchmark/load.py:load_benchmark", "dattri/benchmark/load.py:_download"]}
{"id": "C54", "title": "The music transformer is causal, batch independent and generation agrees with one forward pass", "statement": "For sequences up to max_sequence the logits of a batch are, sample by sample and position by position, those of masked attention with one embedding per distance: no sample influences another, and with the mask the logits of a prefix are a prefix of the logits, so later tokens and the length do not matter. Longer sequences are a RuntimeError (if max_sequence exceeds 1), tokens outside the vocabulary an IndexError. Sampling always returns exactly the requested number of tokens, starts with the primer, never produces END or PAD, and each token is drawn from the row one forward pass over the final sequence gives, so the model cannot end a piece. Beam search is right for a single new token; from the second one on candidates of later hypotheses are read back with the wrong width, as another token or another hypothesis; a beam of two or more followed by a sampled token raises.", "quantifier": "all parameters, batches, sequence lengths, primers, samplers and activation functions", "why_tests_cant": "All lengths and parameter values; a reshaping error is invisible at small sizes.", "anchors": ["dattri/benchmark/models/MusicTransformer/rpr.py:_skew", "dattri/benchmark/models/MusicTransformer/rpr.py:multi_head_attention_forward_rpr", "dattri/benchmark/models/MusicTransformer/music_transformer.py:MusicTransformer.forward", "dattri/benchmark/models/MusicTransformer/music_transformer.py:MusicTransformer.generate"]}
{"id": "C55", "title": "The benchmark's loss functions for saved models return what the ground truth needs, except where batching or file format intervenes", "statement": "For the mnist and cifar settings the result holds one negative log-likelihood per test sample in loader order, independent of the batching, exceptions included; a label that is neither a class nor -100 is an IndexError and -100 silently counts 0. The ImageNet function multiplies each batch's sum by the batch size and divides by the number of samples: with batches of size n it is n times the mean, so it depends on the batching and is the documented sum only for a single batch. The language-model function returns one value per batch, the mean over its tokens, hence per-sample losses only for batches of one. The music function returns for each sample the negated loss of the last position only, independent of the batching. The evaluation pass of the music transformer averages over batches, which is the mean over samples only when batches have one size; a batch whose last targets are all padding makes the loss nan, an empty loader is a ZeroDivisionError. Every function raises TypeError when handed what retrain_loo saves (a whole model) or what the leave-one-out reader passes (a model object).", "quantifier": "all data sets, batch sizes and models", "why_tests_cant": "All data sets and batch splits.", "anchors": ["dattri/benchmark/datasets/mnist/mnist_lr.py:loss_mnist_lr", "dattri/benchmark/datasets/cifar/cifar_resnet9.py:loss_cifar_resnet9", "dattri/benchmark/datasets/imagenet/imagenet_resnet18.py:loss_imagenet_resnet18", "dattri/benchmark/datasets/maestro/maestro_musictransformer.py:loss_maestro_musictransformer", "dattri/benchmark/datasets/wikitext2/wikitext2_gpt2.py:loss_wikitext2_gpt2", "dattri/benchmark/models/MusicTransformer/utilities/run_model.py:eval_model"]}
{"id": "C56", "title": "The benchmark's training functions run plain per-batch descent from the seed alone", "statement": "Training performs, for the given number of epochs, one optimiser step per batch along the gradient of that batch alone, starting from the seeded initial parameters, and returns the last parameters. SGD with momentum mu weighs gradient s of T by 1+mu+...+mu^(T-1-s); weight decay shrinks the parameters by 1-lr*wd per step. The result depends only on the data and the seed (for the language model only if nothing reads numpy's global generator, which it does not seed), so split, reordered and repeated retraining jobs with seeds below 2^32 give the same checkpoints. A seed of None is a TypeError, torch's limits give a RuntimeError and numpy's a ValueError; therefore leave-one-out retraining without a seed always fails and subset retraining without a seed fails unless its 64 random bits happen to be below 2^32. An empty loader returns the initial model (mnist, wikitext2) or raises ZeroDivisionError. The music function returns the parameters of the last epoch in eval mode, not those of the best epoch, and raises UnboundLocalError when no evaluation gave a positive accuracy or finite loss.", "quantifier": "all data sets, models, optimisers, seeds, epochs and generator states", "why_tests_cant": "All seeds, call histories and global generator states.", "anchors": ["dattri/benchmark/datasets/mnist/mnist_lr.py:train_mnist_lr", "dattri/benchmark/datasets/mnist/mnist_mlp.py:train_mnist_mlp", "dattri/benchmark/datasets/cifar/cifar_resnet9.py:train_cifar_resnet9", "dattri/benchmark/datasets/imagenet/imagenet_resnet18.py:train_imagenet_resnet18", "dattri/benchmark/datasets/wikitext2/wikitext2_gpt2.py:train_wikitext2_gpt2", "dattri/benchmark/datasets/maestro/maestro_musictransformer.py:train_maestro_musictransformer"]}
{"id": "C57", "title": "nanoGPT training reads the text it was given, in the order its pointer dictates, and keeps the checkpoint it documents", "statement": "Preparing a text never fails, its two parts decode to the text and identifiers number the sorted characters; an unknown character is a KeyError. Sample i of the attribution data set is block i and its target the tokens one further; the samples concatenate to the text up to the last full block; when blocks fill the text the last target is silently token 0, and reading past the end gives short samples instead of an error. Training reads the same samples, except that a batch with that last block and another raises RuntimeError, so no run reaching it succeeds; otherwise runs complete when their steps do. The n-th call for a batch, for whatever split, advances one shared pointer over the full batches: members of indices.txt behind the last full batch are never trained on, every other is reachable, and evaluation makes training skip the batches it used, so that with an evaluation period filling whole epochs training only ever sees the batches of the first period. A run makes max_iters+1 iterations. With always_save_checkpoint the saved state is that of the last evaluation, otherwise that of the first smallest validation loss, and nothing is saved if that is the evaluation before training. indices.txt accumulates over runs. The learning rate rises linearly to its maximum at the end of the warmup, never rises afterwards and stays at the minimum; its only error is a division by zero when warmup and decay end together. The retraining driver gives model i the seed seed+i-1 for every partition; output directory, seed and ratio only take effect if the configuration has a line for them, and settings whose line begins with one of the four names are lost.", "quantifier": "all texts, block and batch sizes, subsets, networks, schedules, configurations and partitions", "why_tests_cant": "All texts, batch sizes and evaluation periods; the pointer effects show up only over long runs.", "anchors": ["dattri/benchmark/datasets/shakespeare_char/prepare.py", "dattri/benchmark/datasets/shakespeare_char/data.py:CustomDataset", "dattri/benchmark/models/nanoGPT/train.py:get_batch", "dattri/benchmark/models/nanoGPT/train.py:get_batch_indices", "dattri/benchmark/models/nanoGPT/train.py:estimate_loss", "dattri/benchmark/models/nanoGPT/train.py:get_lr", "dattri/script/dattri_retrain_nanogpt.py:retrain"]}
{"id": "C58", "title": "Projection settings are read as documented, silently or not, and TracIn projects every sample the same way", "statement": "A settings object is accepted exactly when each field it knows is absent with a default or readable; otherwise it is a ValueError. Keywords it does not know, e.g. misspelt ones, are silently ignored. proj_dim=None is refused everywhere but for DVEmb, so TracIn always projects: without proj_params the score of one-dimensional gradients is the exact score times the mean square of 512 random draws; exact TracIn needs proj_type identity. The documented grass_N is refused and the multiplier is always 4. On the CPU a non-empty batch of equally wide rows is projected row by row, the result for a row depending only on settings, checkpoint, width and row, so batch splits do not matter; a dictionary of parameters is projected like its concatenated rows; the width is proj_dim, at most the feature count for random_mask, and the feature count for identity. Other outcomes: ValueError for other devices and for sjlt and grass, ZeroDivisionError for empty batches and proj_dim 0 (identity included). TracIn and CosIn, building a new projector for every batch, return the weighted sums of inner products, or cosines, of the projected gradients.", "quantifier": "all settings, random sources, batches, loaders, checkpoints and gradients", "why_tests_cant": "All batch splits and settings; a seed that depended on the batch would pass shape tests.", "anchors": ["dattri/params/projection.py", "dattri/func/projection.py:random_project", "dattri/func/projection.py:_parse_grass_projection_type", "dattri/algorithm/tracin.py:TracInAttributor.attribute"]}
{"id": "C59", "title": "The retraining command runs what its options say, with a few silent exceptions", "statement": "The parser refuses exactly unknown choices (mlp included), partitions that are not three numbers or none, and extra parameters without exactly one equals sign. Of the sixteen combinations of data set and model it accepts, four exist and the others are a KeyError; in both cases nothing is written. With mode lds and partition start,end,total the command trains the subsets start..end-1, subset i from seed+i on half of the first n samples, n being train_subset if positive and the data set size otherwise, and leaves everything else unchanged; with total 0 the start is silently ignored. It is accepted exactly when end-start is not 0 and divides the total, the seed is not negative and n is at least 2; an end before the start succeeds without training anything when the difference divides the total. Equal parts of one experiment, run in any order, produce the directories of the single command, but the ground truth reader cannot read them. With mode loo any ranges give the rows of the requested positions, each from the model trained on the n used positions without it; the default range covers the whole data set, so rows from n on silently repeat the model trained on everything. A train_subset larger than the data set ends in an IndexError. A start of none, and seed or path as extra parameter, are a TypeError. subset_ratio cannot be set to anything but 1.", "quantifier": "all command lines, data set sizes, earlier directory contents, training functions and samplers", "why_tests_cant": "All partitions and orders; parts only fail when read back.", "anchors": ["dattri/script/dattri_retrain.py:main", "dattri/script/dattri_retrain.py:partition_type", "dattri/script/dattri_retrain.py:key_value_pair"]}
{"id": "C60", "title": "Label smoothing and the warm-up schedule compute the published formulas", "statement": "For one row of logits and one class per position, the label smoothing loss is, over the positions whose class is not the ignored one, the sum or the average of (1-eps) times the cross entropy plus eps times the average cross entropy over all classes; ignored positions have no influence, with eps 0 it is the cross entropy and with eps 1 the classes do not matter; it is never negative. The mean over all positions is nan when every position is ignored. The mean of two batches together is weighted by their kept positions and equals the average of the two means only for equally many kept positions or equal means. A class outside the vocabulary raises even when it is the ignored one, so the default ignore_index -100 can never be used; smoothing outside 0..1 and other reductions are refused; logits of another width raise, except that a vocabulary of one class silently adds the losses of all columns, and a single target for several rows is silently applied to all rows with their sum as mean. The schedule gives at every positive step, counted from init_steps, d^-1/2 min(s^-1/2, s w^-3/2): rate zero at the first step, strictly increasing to its only maximum (dw)^-1/2 at the warm-up step and strictly decreasing after it; negative steps give negative rates. Exactly positive dimensions and warm-ups are accepted.", "quantifier": "all logits, classes, vocabularies, smoothing values, reductions; all dimensions, warm-ups and steps; any logsumexp", "why_tests_cant": "Real-valued identities and monotonicity over all steps.", "anchors": ["dattri/benchmark/models/MusicTransformer/loss.py:SmoothCrossEntropyLoss", "dattri/benchmark/models/MusicTransformer/utilities/lr_scheduling.py:LrStepTracker"]}
{"id": "C61", "title": "The nanoGPT network is a causal transformer, and generation samples from it", "statement": "In evaluation mode the network returns at every position the logits of the pre-norm transformer in which position i attends to positions 0..i with scaled softmax weights, separately in each head, with the token embedding as output matrix. Given targets the loss is the average cross entropy over the positions whose target is not -1 (nan if there is none); without targets only the last position is returned, and it is the last one of the full pass. Later tokens and other rows never matter; flash attention and the mask buffer give the same result; cropping the block size changes nothing except that longer sequences are refused. Generation with n new tokens keeps the prompt, draws each token from the softmax of the logits over the temperature restricted to tokens with fewer than top_k strictly larger logits (ties are all kept), and uses the last block_size tokens only: prompts with the same last block_size tokens get the same continuation. top_k of at least the vocabulary is no restriction. Sequences longer than the block size, tokens and targets outside the vocabulary, wrong target counts, empty prompts, top_k 0, temperature 0 and block size 0 raise. The parameter count counts the shared matrix once and leaves out the positions only; weight decay applies to exactly the matrices, and every parameter is in one of the two groups.", "quantifier": "all sizes, weights, numbers of layers and heads, token and target batches, temperatures, top_k and lengths; any positive exponential, activation, normalisation, logsumexp and sampler", "why_tests_cant": "Causality and equality with the reference hold at every position of every input; tests see single shapes and seeds.", "anchors": ["dattri/benchmark/models/nanoGPT/model.py:GPT.forward", "dattri/benchmark/models/nanoGPT/model.py:GPT.generate", "dattri/benchmark/models/nanoGPT/model.py:GPT.crop_block_size", "dattri/benchmark/models/nanoGPT/model.py:GPT.get_num_params", "dattri/benchmark/models/nanoGPT/model.py:GPT.configure_optimizers"]}
{"id": "C62", "title": "Recycling write buffers loses nothing, and saved preconditioners come back", "statement": "The chunked store fills a small number of buffers again and again. In every interleaving of its calls with the write workers it makes the same calls possible, with the same outcomes, the same files and the same values read, as a store with a new buffer for every chunk; so everything claimed for finished sessions holds, and running out of buffers after an overflow never happens. Tensors returned by a read have their own memory when the device is not the CPU or the chunk of the batch is no longer being filled, in particular after finalize_batch_range; any result keeps its value while nothing is stored. On the CPU, a batch of one sample (or one layer) read while its chunk is being filled is a view and changes later, when the buffer is filled for another chunk. Preconditioners: if no save fails and a layer is stored at most once between two waits, after a wait every layer reads as stored last, None stores changing nothing. Two saves without a wait may leave the older tensor; a failed save is only logged and the wait returns, the file being unreadable although has_preconditioners is true.", "quantifier": "all sequences of calls, chunk, pool and buffer sizes, batches, interleavings with any number of writer threads, earlier directory contents", "why_tests_cant": "Buffer reuse shows only after many chunks; races need particular interleavings.", "anchors": ["dattri/algorithm/block_projected_if/offload/disk_io/manager.py:BufferPool", "dattri/algorithm/block_projected_if/offload/disk_io/manager.py:ChunkedDiskIOManager.store_gradients", "dattri/algorithm/block_projected_if/offload/disk_io/manager.py:ChunkedDiskIOManager.retrieve_gradients", "dattri/algorithm/block_projected_if/offload/disk_io/manager.py:ChunkedDiskIOManager.store_preconditioner", "dattri/algorithm/block_projected_if/offload/disk_io/manager.py:ChunkedDiskIOManager.wait_for_async_operations"]}
{"id": "C63", "title": "Training settings and text blocks are what the command line and the corpus say, or the run stops", "statement": "The nanoGPT training script takes --name=value settings for names that have a default, with a value of exactly the type of the default; the last one counts, everything else stays. A configuration file overrides what stands before it and is overridden by what follows. The first argument that does not fit ends the script: ValueError for unknown names and several equals signs, AssertionError for other types (an int for a float, a fraction for subset_ratio, whose default is the integer 1), for a missing --, and for flags without a value. Strings for arg, key and val are silently accepted and ignored. Without a configuration file the training never starts, because dataset_path has no default. The WikiText data set cuts, 1000 documents at a time and for tokens and masks alike, the concatenated documents into full blocks; each such batch loses less than a block at its end, nothing is reordered or duplicated, and the labels are the tokens. A block size above the limit of the tokenizer, documented to be reduced with a warning, raises TypeError; 0 raises ZeroDivisionError.", "quantifier": "all argument lists, default settings, literals, configuration files; all corpora, columns and block sizes", "why_tests_cant": "All orders of arguments and files; lost tokens depend on the corpus.", "anchors": ["dattri/benchmark/models/nanoGPT/configurator.py", "dattri/benchmark/models/nanoGPT/train.py", "dattri/benchmark/datasets/wikitext2/data.py:create_wikitext2_dataset"]}
{"id": "C64", "title": "The functions of a task see the frozen parameters, buffers and mode of one well-defined model", "statement": "A loss or target written with functional_call takes frozen parameters, persistent buffers (batch-norm statistics) and the training mode from the model object it closes over. With the default loading, or any in place, the loop of the attributors (parameters of checkpoint c, gradient function for c, evaluation) computes for every list of checkpoints, with or without a layer selection and after any earlier use at checkpoint values, the gradient of the complete network of checkpoint c in evaluation mode. A function over all parameters does not load the checkpoint it is requested for: evaluated at any point after any history it uses frozen parameters and buffers of the checkpoint loaded last, and of the untrained model in its original mode before any load. If loading returns a new model object, as in the documented example, frozen parameters, buffers and mode of the user's own model are used for every checkpoint; the loop is then still right when there is nothing frozen and the model is in evaluation mode to begin with.", "quantifier": "all architectures, checkpoints, loss and target functions, layer selections, histories of requests and evaluations, lists of checkpoints and both ways of loading", "why_tests_cant": "Needs models with buffers or frozen layers and several checkpoints; wrong buffers give plausible numbers.", "anchors": ["dattri/task.py:AttributionTask", "dattri/task.py:_default_checkpoint_load_func", "dattri/algorithm/tracin.py:TracInAttributor.attribute", "dattri/algorithm/base.py:BaseInnerProductAttributor"]}
{"id": "C65", "title": "Tied weights, state dicts that are not copied, parameter tuples and user changes", "statement": "With a task whose checkpoints are loaded in place, asking for the flat parameters at an index gives, whatever was asked for or done to the model before, the stored values of that checkpoint, if another index was asked for last. While the same index is asked for again, the model is returned as it is, with the user's own changes, and a replaced entry of the checkpoint list is not looked at. If the user changes nothing, every request gives the checkpoint of its index. Tensors shared between several names (tied weights) count once; the loss or target function evaluated at the vector sees the value under every name, so with checkpoints that agree on tied names it computes with exactly the checkpoint; if they disagree, the entry of the last name wins although the parameter is listed under the first. An entry that is the model's own state dict, not copied, gives the parameters of the checkpoint loaded before it. A tuple from layer_split=True shares the model's memory: its values become those of the checkpoint loaded later.", "quantifier": "all models, sharing patterns, frozen sets, checkpoint lists, histories of requests and of user changes", "why_tests_cant": "Tests use models without tied weights, copied state dicts and one order of requests; sharing is only visible after later loads.", "anchors": ["dattri/task.py:22", "dattri/task.py:113", "dattri/task.py:160", "dattri/task.py:384", "dattri/func/utils.py:152", "dattri/func/utils.py:177"]}
{"id": "C66", "title": "Influence scores and TracIn scores predict what training does", "statement": "For quadratic sample losses (least squares) with the full training set in one batch, and a model trained to the minimum of mean loss plus weight decay equal to the regularization, the explicit influence score of a training and a test sample is minus the derivative of the test loss of the retrained model in the additional weight of the training sample: the change for weight e is -score*e up to a constant times e^2, for every minimiser. Retraining is well defined (one minimiser) for convex losses with weight decay, for all weights from removal (-1/n) upwards. For least squares the effect of removing the sample is exact: the linear part of the change of the test loss is score/(n(1-h)), where h is the leverage of the sample, 0 <= h < 1, and the rest is the second-order term. The TracIn score is the decrease of the test loss by one gradient step on the training sample at each checkpoint with its weight as rate, up to the second-order terms; over a run of single-sample steps the scores, each with the rates of its own steps, share out the total decrease. With several batches in the cached loader the influence score is not this derivative.", "quantifier": "all dimensions, symmetric (convex where stated) quadratic losses, training and test sets, batchings of the queries, regularizations, weights, rates, sequences of steps", "why_tests_cant": "Tests compare formulas with formulas; that a score predicts retraining is a statement about all minimisers and a limit.", "anchors": ["dattri/algorithm/influence_function.py:IFAttributorExplicit", "dattri/func/hessian.py:ihvp_explicit", "dattri/algorithm/base.py:BaseInnerProductAttributor.attribute", "dattri/algorithm/tracin.py:TracInAttributor.attribute"]}
{"id": "C67", "title": "The image classifiers give one row per image in evaluation mode; training passes couple images and record statistics", "statement": "In evaluation mode ResNet9 returns, for a non-empty batch of images with three channels and at least one pixel, one row of logits per image, equal to the network of convolutions whose kernels and biases absorb the batch normalisation of the recorded statistics, and does not change the statistics; any other batch raises RuntimeError. The row of an image does not depend on the other images, their order or number, also with given dropout masks. In training mode one image of at most 4x4 pixels raises ValueError, after the statistics of earlier layers have changed; all other valid batches are taken. The rows of a training pass do not depend on the recorded statistics, but do depend on the other images of the batch; repeated passes over one batch move every recorded mean and variance geometrically, by a tenth of the distance, to the mean and the unbiased variance of that batch. Logistic regression takes exactly non-empty batches of 28*28 numbers per entry of the first dimension. The multi-layer perceptron regroups the entries of the whole batch in rows of 28*28 and so accepts two half images as one; for proper images each row depends only on its image.", "quantifier": "all weights, statistics, batch sizes, image sizes, dropout masks, selections of images, numbers of passes, tensor shapes", "why_tests_cant": "Tests run one shape; independence of rows and the effect of failed passes quantify over all batches.", "anchors": ["dattri/benchmark/models/resnet9/resnet9.py:ResNet9", "dattri/benchmark/models/mlp/mlp.py:MLPMnist", "dattri/benchmark/models/logistic_regression/logistic_regression.py:LogisticRegressionMnist"]}
{"id": "C68", "title": "The influence-function attributors agree where their approximations end", "statement": "With the same task, cached loader and queries, and batch Hessians that plus the regularization are symmetric with eigenvalues between mu > 0 and L: the conjugate-gradient scores, as long as they are finite, differ from the explicit scores by at most the number of cached batches times the gradient lengths times a factor whose square is (1+L^2)/mu^2 * (1-mu/L)^k after k iterations, and are equal to them if still finite with at least as many iterations as parameters. LiSSA, when a step uses all samples of a batch, approaches in the same way, with (1-mu/L)^(depth+1)/mu^2, the explicit scores for regularization damping*scaling, for any number of repeats, when the scaling is L. The Arnoldi scores with a complete basis, no truncation and all cached batches are the explicit scores for the same data cached in one batch. Arnoldi refuses tuple batches (TypeError), dict batches (KeyError) and a data ratio that selects no batch (IndexError), where the explicit attributor returns scores.", "quantifier": "all numbers of parameters, checkpoints, batches and samples, gradients, Hessians in the stated class, iteration numbers, repeats, permutations, eigendecompositions and start vectors", "why_tests_cant": "Tests compare two solvers on one small matrix with a tolerance; rates and equality hold for all spectra, loaders and checkpoints.", "anchors": ["dattri/algorithm/influence_function.py:IFAttributorExplicit", "dattri/algorithm/influence_function.py:IFAttributorCG", "dattri/algorithm/influence_function.py:IFAttributorLiSSA", "dattri/algorithm/influence_function.py:IFAttributorArnoldi", "dattri/func/hessian.py:ihvp_cg", "dattri/func/hessian.py:ihvp_lissa", "dattri/func/projection.py:ArnoldiProjector"]}
{"id": "C69", "title": "KNN-Shapley values: sign, size and order; what the default distance depends on", "statement": "For 1 <= K <= number of training samples, a training sample whose label equals that of the test sample has a value between 0 and 1/max(K, 1+r), one with another label between minus that and 0, where r is the number of training samples strictly nearer to the test sample. For every K > 0, of two samples with the test label the strictly nearer one has at least the value of the other, of two with another label at most. With K larger than the training set the sign statement fails. Only the order of the distances matters: two distance functions that order the training samples of each test sample alike, without ties, give the same table with any implementation of argsort. With the default distance the table does not change when all features are rotated, reflected or translated together (ties included), nor, without ties, when they are scaled by a common positive factor or when the squared distance is used. The default distance takes exactly feature rows of equal length in both loaders, anything else raises RuntimeError; passing a task raises NotImplementedError.", "quantifier": "all distances, features, labels, label lists, batchings without drop_last, K, argsort implementations, rigid motions and scale factors", "why_tests_cant": "Tests compare a few values; sign, bound and invariance are statements about all data sets, and ties are resolved by an unspecified sort.", "anchors": ["dattri/algorithm/data_shapley.py:default_dist_func", "dattri/algorithm/data_shapley.py:KNNShapleyAttributor.__init__", "dattri/algorithm/data_shapley.py:KNNShapleyAttributor.attribute"]}
{"id": "C70", "title": "What the nanoGPT retraining command leaves on disk, over any sequence of calls", "statement": "The first call that is given a text (a working download for shakespeare_char, an existing --data_file for tinystories) and whose preparation is not interrupted prepares exactly that text and trains on it models start+1 to min(end, total), model k with seed + k - 2. Once meta.pkl exists, no sequence of calls changes the data set, and model k is the one of the last call that covers k and whose training of k did not fail; all other models are left as they were. So calls with one seed that cover the same models leave the same models, in any order and split. A call refused for its ratio or data set, or made with --only_download_dataset, trains nothing, but prepares the data. The command does not report failures: it returns normally unless the ratio or the data set name is refused, and with --only_download_dataset for every name. A failed download is not made good by later calls: it leaves an empty input.txt from which the next call prepares an empty data set for good. --data_file has no effect for shakespeare_char, and none after the first complete preparation. After an interrupted preparation the command goes on to train, possibly with the training text of one file and the validation text of another.", "quantifier": "all sequences of calls for one data set and save path, texts, interruptions between writes, failures of trainings, seeds, partitions", "why_tests_cant": "Tests do not call the command; the effects appear only over several calls with failures in between.", "anchors": ["dattri/script/dattri_retrain_nanogpt.py:retrain", "dattri/script/dattri_retrain_nanogpt.py:main", "dattri/benchmark/datasets/shakespeare_char/prepare.py:13", "dattri/benchmark/datasets/tinystories/prepare.py:20"]}
