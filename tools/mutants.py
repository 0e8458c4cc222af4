"""Seeded bugs: one realistic edit of one definition of the model each (see mutate.py)."""
MUTANTS = []


def mu(id, file, definition, edit, claim, breaks, old, new):
    MUTANTS.append(dict(id=id, file=file, definition=definition, edit=edit, claim=claim, breaks=breaks, old=old, new=new))


# ---------------------------------------------------------------- ClusterLabeller
mu("cl01", "Cluster.v", "default_dx", "rank 2: the offset (1,0) is dropped", "C01: pixels joined from below are one cluster", ["C01", "C04", "C05"],
   "[[-1; 0]; [0; -1]; [0; 1]; [1; 0]]", "[[-1; 0]; [0; -1]; [0; 1]]")
mu("cl02", "Cluster.v", "default_dx", "rank 3: (0,0,1) replaced by (0,1,1)", "C01: face neighbours in 3-d", ["C01", "C04"],
   "[0; 0; -1]; [0; 0; 1]; [0; 1; 0]; [1; 0; 0]]", "[0; 0; -1]; [0; 1; 1]; [0; 1; 0]; [1; 0; 0]]")
mu("cl03", "Cluster.v", "kernel_to_dx", "the centre of the kernel is not removed", "C13: the centre of the kernel is not an offset", ["C13", "C04"],
   "kvals' <- vset kvals idx 0 ;;", "kvals' <- vset kvals idx 1 ;;")
mu("cl04", "Cluster.v", "kernel_to_dx", "middle is n/2 - 1 instead of (n-1)/2", "C13: offsets are relative to the middle of the kernel", ["C13"],
   "let mid := map (fun n => (n - 1) / 2) kshape in", "let mid := map (fun n => n / 2 - 1) kshape in")
mu("cl05", "Cluster.v", "wrap_unsigned", "the shape is not added before the modulus", "C01: negative offsets wrap around", ["C01", "C04", "C06"],
   "u64 (u64 (n + x) + d) mod n", "u64 (x + d) mod n")
mu("cl06", "Cluster.v", "get_compare", "rank 2, not periodic: upper bound of the columns is <= n1", "C01: the image ends at its last column", ["C01", "C04"],
   "(ii <? 0) || (n0 <=? ii) || (jj <? 0) || (n1 <=? jj)", "(ii <? 0) || (n0 <=? ii) || (jj <? 0) || (n1 <? jj)")
mu("cl07", "Cluster.v", "get_compare", "rank 2, periodic: rows and columns swapped in the wrap", "C01: wraps along the right axis", ["C01", "C04"],
   "let ii := s64 (wrap_unsigned n0 (idx / n1) d0) in\n          let jj := s64 (wrap_unsigned n1 (idx mod n1) d1) in",
   "let ii := s64 (wrap_unsigned n0 (idx / n1) d1) in\n          let jj := s64 (wrap_unsigned n1 (idx mod n1) d0) in")
mu("cl08", "Cluster.v", "shift_loop", "not periodic: the test for negative indices is dropped", "C01: 3-d images end at their faces", ["C01", "C04", "C06"],
   "else if (i1 <? 0) || (n <=? i1) then None", "else if (n <=? i1) then None")
mu("cl09", "Cluster.v", "relabel", "the chain of already merged labels is not followed", "C04: clusters merged earlier follow", ["C01", "C04", "C05"],
   "else r <- vset renum i' target ;; relabel f next r i' target", "else r <- vset renum i' target ;; Ok r")
mu("cl10", "Cluster.v", "merge_detail", "the label b itself is not renumbered", "C04: merged clusters carry one label", ["C01", "C04"],
   "renum1 <- vset (c_renum s) b target ;;", "renum1 <- Ok (c_renum s) ;;")
mu("cl11", "Cluster.v", "merge_detail", "b is linked to a directly instead of to the end of the chain", "C04: clusters merged earlier follow", ["C01", "C04"],
   "next' <- vset (c_next s) e b ;;", "next' <- vset (c_next s) a b ;;")
mu("cl12", "Cluster.v", "dedup", "only the first of the duplicates is dropped", "C06: labels of neighbours are unique before merging", ["C01", "C04", "C06"],
   "if x =? y then dedup t else x :: dedup t", "if x =? y then t else x :: dedup t")
mu("cl13", "Cluster.v", "merge", "only the first other label is merged", "C01: all neighbouring clusters are merged", ["C01", "C04"],
   "s' <- foldM (fun s b => merge_detail s target b) rest s ;; Ok (s', target)",
   "s' <- foldM (fun s b => merge_detail s target b) (firstn 1 rest) s ;; Ok (s', target)")
mu("cl14", "Cluster.v", "zinsert", "labels sorted in descending order", "C07: the smallest label is kept", ["C07", "C02"],
   "if x <=? y then x :: l else y :: zinsert x t", "if y <=? x then x :: l else y :: zinsert x t")
mu("cl15", "Cluster.v", "connected_of", "raw labels instead of renumbered ones", "C04: labels merged in the same call are followed", ["C01", "C04"],
   "else r <- vget (c_renum s) l ;; Ok (acc ++ [r]))", "else Ok (acc ++ [l]))")
mu("cl16", "Cluster.v", "label_impl", "the counter of labels is not advanced", "C04: separate clusters have different labels", ["C01", "C04"],
   "Ok (mkst (c_label s') (c_new s + 1)", "Ok (mkst (c_label s') (c_new s)")
mu("cl17", "Cluster.v", "label_impl", "merges are not counted", "C04: merges are applied to the image", ["C01", "C04", "C10"],
   "(c_nmerge s2 + 1)", "(c_nmerge s2)")
mu("cl18", "Cluster.v", "apply_merge", "links between labels are not cleared", "C06: loops end after any history", ["C04", "C06"],
   "Ok (mkst l (c_new s) 0 (c_renum s) (repeat (-1) (length (c_next s)))).", "Ok (mkst l (c_new s) 0 (c_renum s) (c_next s)).")
mu("cl19", "Cluster.v", "apply_merge", "the image is not renumbered", "C04: merged clusters carry one label", ["C01", "C04"],
   "Ok (mkst l (c_new s) 0 (c_renum s)", "Ok (mkst (c_label s) (c_new s) 0 (c_renum s)")
mu("cl20", "Cluster.v", "add_image", "the last pixel is skipped", "C03: every added pixel is labelled", ["C03", "C01", "C04"],
   "(zseq 0 (length img)) s ;;\n  apply_merge s'.", "(zseq 0 (length img - 1)) s ;;\n  apply_merge s'.")
mu("cl21", "Cluster.v", "add_image", "the shape assertion compares with itself", "C06: a wrong shape throws", ["C06"],
   "_ <- assertb asrt (eqbl ishape (g_shape g)) ;;", "_ <- assertb asrt (eqbl ishape ishape) ;;")
mu("cl22", "Cluster.v", "legal_points", "<= instead of <", "C06: points outside throw", ["C06"],
   "forallb (fun i => u64 i <? lenZ (c_label s)) idx", "forallb (fun i => u64 i <=? lenZ (c_label s)) idx")
mu("cl23", "Cluster.v", "add_points", "pixels that carry a label are labelled again", "C07: existing labels are kept", ["C07", "C03", "C05"],
   "if negb (l =? 0) then Ok s else label_impl g s i) idx s ;;", "if negb (l =? 0) then label_impl g s i else label_impl g s i) idx s ;;")
mu("cl24", "Cluster.v", "add_points", "merges are not applied at the end of the call", "C04: merged clusters carry one label", ["C04", "C05", "C07"],
   "if negb (l =? 0) then Ok s else label_impl g s i) idx s ;;\n  apply_merge s'.", "if negb (l =? 0) then Ok s else label_impl g s i) idx s ;;\n  Ok s'.")
mu("cl25", "Cluster.v", "add_sequence", "the size of the sequence is not appended", "C10: the report ends with the size", ["C10"],
   "Ok (s2, ret ++ [lenZ idx]).", "Ok (s2, ret).")
mu("cl26", "Cluster.v", "add_sequence", "the report ends with size - 1", "C10: the report ends with the size", ["C10"],
   "Ok (s2, ret ++ [lenZ idx]).", "Ok (s2, ret ++ [lenZ idx - 1]).")
mu("cl27", "Cluster.v", "seq_inner", "a new cluster is not reported", "C10: starting or merging clusters is reported", ["C10"],
   "if negb (c_new s' =? nl) || negb (c_nmerge s' =? nm) then Ok (s', i, true)", "if negb (c_nmerge s' =? nm) then Ok (s', i, true)")
mu("cl28", "Cluster.v", "seq_inner", "a merge is not reported", "C10: starting or merging clusters is reported", ["C10"],
   "if negb (c_new s' =? nl) || negb (c_nmerge s' =? nm) then Ok (s', i, true)", "if negb (c_new s' =? nl) then Ok (s', i, true)")
mu("cl29", "Cluster.v", "seq_inner", "positions are reported one late", "C10: the reported position is the pixel that changed the clusters", ["C10"],
   "|| negb (c_nmerge s' =? nm) then Ok (s', i, true)", "|| negb (c_nmerge s' =? nm) then Ok (s', i + 1, true)")
mu("cl30", "Cluster.v", "reset", "the counter of labels survives", "C09: reset equals a fresh object", ["C09"],
   "mkst (repeat 0 (length (c_label s))) 1 (c_nmerge s)", "mkst (repeat 0 (length (c_label s))) (c_new s) (c_nmerge s)")
mu("cl31", "Cluster.v", "reset", "the table of labels survives", "C09: reset equals a fresh object", ["C09"],
   "(zseq 0 (length (c_renum s)))\n       (repeat (-1) (length (c_next s))).", "(c_renum s)\n       (repeat (-1) (length (c_next s))).")
mu("cl32", "Cluster.v", "prune_loop", "numbering starts at 2", "C08: labels are 1..n after prune", ["C08", "C02"],
   "(zrange 1 n) (renum, 1).", "(zrange 1 n) (renum, 2).")
mu("cl33", "Cluster.v", "prune_loop", "the last label is not visited", "C08: labels are 1..n after prune", ["C08", "C02"],
   "(zrange 1 n) (renum, 1).", "(zrange 1 (n - 1)) (renum, 1).")
mu("cl34", "Cluster.v", "prune", "the counter of labels is not lowered", "C08: labels after prune continue without gaps", ["C08"],
   "Ok (mkst l new (c_nmerge s) renum2 (c_next s)).", "Ok (mkst l (c_new s) (c_nmerge s) renum2 (c_next s)).")
mu("cl35", "Cluster.v", "prune", "the table is not set back to the identity", "C08: later calls see pruned labels", ["C08", "C04", "C06"],
   "Ok (mkst l new (c_nmerge s) renum2 (c_next s)).", "Ok (mkst l new (c_nmerge s) renum1 (c_next s)).")
mu("cl36", "Cluster.v", "clusters", "prune is not called", "C02: labels are numbered without gaps", ["C02"],
   "s' <- prune s ;;\n  Ok (c_label s').", "s' <- Ok s ;;\n  Ok (c_label s').")
mu("cl37", "Cluster.v", "clusters", "the periodicity is ignored", "C01: periodic images are periodic", ["C01"],
   "g <- make_default shape per ;;\n  s <-", "g <- make_default shape false ;;\n  s <-")
mu("cl38", "Cluster.v", "init", "the table of labels is one entry too short", "C06: no out-of-range access", ["C06"],
   "1 0 (zseq 0 (Z.to_nat (N + 1)))", "1 0 (zseq 0 (Z.to_nat N))")

# ---------------------------------------------------------------- label utilities
mu("la01", "Labels.v", "memplace", "an existing entry is overwritten", "C16/C17: the first row of a label counts", ["C16", "C17"],
   "else if k =? k' then m\n", "else if k =? k' then (k, v) :: t\n")
mu("la02", "Labels.v", "memplace", "keys in descending order", "C16: rows are sorted by label", ["C16", "C21"],
   "if k <? k' then (k, v) :: m", "if k' <? k then (k, v) :: m")
mu("la03", "Labels.v", "labels_map", "columns swapped", "C16: first column is the old label", ["C16"],
   "Ok (memplace m x y))", "Ok (memplace m y x))")
mu("la04", "Labels.v", "rename_table", "the last row is ignored", "C17: every row of the table is used", ["C17"],
   "(zrange 0 nr) [].", "(zrange 0 (nr - 1)) [].")
mu("la05", "Labels.v", "labels_rename", "the check for missing labels is dropped", "C17: a missing label throws", ["C17"],
   "_ <- (if asrt then\n          foldM", "_ <- (if false then\n          foldM")
mu("la06", "Labels.v", "prune_table", "background gets a number of its own", "C18: background stays background", ["C18"],
   "if existsb (Z.eqb 0) unq then", "if false then")
mu("la07", "Labels.v", "prune_table", "numbering starts at 0", "C18: labels are 1..n", ["C18"],
   "else combine unq (zseq 1 (length unq)).", "else combine unq (zseq 0 (length unq)).")
mu("la08", "Labels.v", "prune_table", "negative labels: background is not skipped", "C18: background stays background", ["C18"],
   "else let f := filter (fun u => negb (u =? 0)) unq in combine f (zseq 1 (length f))", "else combine unq (zseq 1 (length unq))")
mu("la09", "Labels.v", "labels_reorder", "inverse permutation", "C19: order[i] becomes i", ["C19"],
   "(fun r i => o <- vget order i ;; vset r o i)", "(fun r i => o <- vget order i ;; vset r i o)")
mu("la10", "Labels.v", "labels_reorder", "table one entry too short", "C19: the largest label is reordered", ["C19", "C20"],
   "Ok (repeat 0 (Z.to_nat (maxlab + 1)))) ;;", "Ok (repeat 0 (Z.to_nat maxlab))) ;;")
mu("la11", "Labels.v", "labels_reorder", "only the number of labels is checked", "C20: an order with other labels throws", ["C20"],
   "_ <- assertb asrt (eqbl (unique labels) (unique order)) ;;\n", "")
mu("la12", "Labels.v", "labels_sizes_impl", "first occurrence counts 0", "C21: sizes count pixels", ["C21"],
   "| None => memplace m l 1", "| None => memplace m l 0")
mu("la13", "Labels.v", "labels_sizes_names", "an absent name throws the rest out of step", "C21: sizes are in the order of the names", ["C21"],
   "let (m', v) := mindex m n in (m', ret ++ [v]))", "let (m', v) := mindex m n in (m', v :: ret))")

# ---------------------------------------------------------------- dilate, kernels, padding
mu("di01", "Dilate.v", "copy_slab", "background of the source overwrites labels", "C22: labelled pixels keep their label", ["C22", "C23", "C24"],
   "in if v =? 0 then old else v", "in v")
mu("di02", "Dilate.v", "below_to_above", "the slab starts p too late", "C23: dilation crosses the periodic boundary", ["C23", "C24"],
   "copy_slab ax (dim ax a - q - p) 0 p a)", "copy_slab ax (dim ax a - p) 0 p a)")
mu("di03", "Dilate.v", "above_to_below", "source is the upper part of the image instead of the padding", "C23: dilation crosses the periodic boundary", ["C23", "C24"],
   "copy_slab ax p (dim ax a - q) q a)", "copy_slab ax p (dim ax a - q - q) q a)")
mu("di04", "Dilate.v", "periodic_copy", "only one direction is copied", "C23: dilation crosses both boundaries", ["C23"],
   "a <- above_to_below P a ;; below_to_above P a.", "above_to_below P a.")
mu("di05", "Dilate.v", "dil_point", "iteration count off by one", "C23: n iterations", ["C23"],
   "if n <=? iter then Ok G", "if n <? iter then Ok G")
mu("di06", "Dilate.v", "dil_point", "labelled pixels are overwritten", "C22: labelled pixels keep their label", ["C22", "C24"],
   "then if (at3 0 F a b c =? 0) && (at3 0 K", "then if (at3 0 K")
mu("di07", "Dilate.v", "dil_point", "the kernel is applied mirrored", "C23: pixels are added at the offsets of the kernel", ["C23", "C24"],
   "(at3 0 K (a - (h - p0)) (b - (i - p1)) (c - (j - p2)) =? 1)", "(at3 0 K (h + q0 - a) (i + q1 - b) (j + q2 - c) =? 1)")
mu("di08", "Dilate.v", "dil_iter", "the image is updated in place", "C23: one iteration reaches one kernel far", ["C23"],
   "G <- foldM (dil_point iter iterations K F P)", "G <- foldM (fun F x => dil_point iter iterations K F P F x)")
mu("di09", "Dilate.v", "dil_iter", "the last row is not visited", "C23: every labelled pixel grows", ["C23"],
   "(loop3 p0 (d0 F - q0) p1 (d1 F - q1) p2 (d2 F - q2)) F ;;", "(loop3 p0 (d0 F - q0 - 1) p1 (d1 F - q1) p2 (d2 F - q2)) F ;;")
mu("di10", "Dilate.v", "dil_iter", "periodic copy in every case", "C23: without periodicity nothing wraps", ["C23", "C24"],
   "if per then periodic_copy P G else Ok G.", "periodic_copy P G.")
mu("di11", "Dilate.v", "crop", "offset of the second axis missing", "C22: the result is aligned with the image", ["C22", "C23"],
   "(fun h i j => at3 0 F (h + p0) (i + p1) (j + p2)).", "(fun h i j => at3 0 F (h + p0) i (j + p2)).")
mu("di12", "Dilate.v", "dilate", "one iteration too few", "C23: n iterations", ["C23"],
   "(zrange 0 n) F ;;\n    Ok (dat (crop P F)).", "(zrange 1 n) F ;;\n    Ok (dat (crop P F)).")
mu("di13", "Dilate.v", "dilate", "rank assertion dropped", "C26: kernels of another rank throw", ["C26"],
   "_ <- assertb asrt (Nat.eqb (length fs) (length ks)) ;;\n", "")
mu("di14", "Dilate.v", "dilate_n", "list of iterations has no entry for the largest label", "C23: every label grows", ["C23"],
   "m <- amax f ;;\n  dilate asrt fs f ks kv (repeat n (Z.to_nat (u64 (m + 1)))) per.", "m <- amax f ;;\n  dilate asrt fs f ks kv (repeat n (Z.to_nat (u64 m))) per.")
mu("di15", "Kernel.v", "nearest", "rank 2: corners are included", "C51: nearest neighbours", ["C51", "C12"],
   "| S (S O) => Ok (shape, map (fun c => if existsb (Z.eqb 1) c then 1 else 0) pos)", "| S (S O) => Ok (shape, map (fun c => 1) pos)")
mu("di16", "Array3.v", "pad_periodic", "padding repeats the border instead of wrapping", "C23: dilation crosses the periodic boundary", ["C23", "C35"],
   "(fun h i j => at3 v a ((h - p0) mod d0 a)", "(fun h i j => at3 v a (Z.max 0 (Z.min (d0 a - 1) (h - p0)))")
mu("di17", "Array3.v", "pad_axis", "even lengths padded symmetrically", "C32: pad widths of even sizes", ["C32"],
   "((n / 2 - 1) mod 18446744073709551616, n / 2)", "(n / 2, n / 2)")
mu("di18", "Array3.v", "atleast_3d_axis", "rank 1 is put on the first axis", "C32: distance along the axis of a 1-d roi", ["C32"],
   "axis + (if 3 - rank <=? 1 then 0 else 1).", "axis.")

# ---------------------------------------------------------------- paths
mu("pa01", "Path.v", "bres_axis", "direction is lost", "C27: the path leads to the target", ["C27"],
   "Ok (a, Z.sgn d, p)", "Ok (a, Z.abs (Z.sgn d), p)")
mu("pa02", "Path.v", "bresenham", "the error starts at a - aj", "C28: within half a pixel", ["C28"],
   "set (set (mkv3 0 0 0) p (get a p - get a j / 2)) q (get a q - get a j / 2)", "set (set (mkv3 0 0 0) p (get a p - get a j)) q (get a q - get a j)")
mu("pa03", "Path.v", "bres_check", "strict comparison", "C28/C27: the path ends in the target", ["C27", "C28"],
   "if 0 <=? get d i then", "if 0 <? get d i then")
mu("pa04", "Path.v", "bres_loop", "the error of the second minor axis is not advanced", "C27: the path leads to the target", ["C27", "C28"],
   "(get d'' (snd (others j)) + get a (snd (others j)))", "(get d'' (snd (others j)))")
mu("pa05", "Path.v", "others", "axis 1: the wrong minor axes", "C27: the path leads to the target", ["C27", "C28"],
   "| X1 => (X0, X2) |", "| X1 => (X0, X0) |")
mu("pa06", "Path.v", "bres_loop", "the last pixel is not stored", "C27: the path contains the target", ["C27"],
   "if get x j =? b then Ok [row ndim x]", "if get x j =? b then Ok []")
mu("pa07", "Path.v", "line_axis", "the first intersection is a whole pixel away", "C30/C56: pixels on the line", ["C30", "C56"],
   "(inject_Z (Z.sgn d) * (1 # 2))", "(inject_Z (Z.sgn d))")
mu("pa08", "Path.v", "move", "the position does not include the origin (repair)", "C31_line_translation_refuted is about the code as it is", ["C31"],
   "(inject_Z (d_from d) + slope d * tm)", "(slope d * tm)")
mu("pa09", "Path.v", "line_loop", "full: diagonal steps are not split", "C30: full visits face neighbours", ["C30"],
   "let rows := if full then cross_each tm [] l else [cindex l'] in", "let rows := [cindex l'] in")
mu("pa10", "Path.v", "crosses", "tolerance too wide", "C30/C56: one step per crossing", ["C56", "C30"],
   "(1 # 1000000).", "(1 # 10).")
mu("pa11", "Path.v", "line", "the origin is not stored", "C30: the path starts at the origin", ["C30"],
   "Ok (cindex l :: rest).", "Ok rest.")
mu("pa12", "Path.v", "path", "modes actual and full swapped", "C30: what each mode visits", ["C30", "C56"],
   "| actual => line false fuel x0 x1\n  | full => line true fuel x0 x1", "| actual => line true fuel x0 x1\n  | full => line false fuel x0 x1")
mu("pa13", "Path.v", "tmin_from", "the largest crossing is taken", "C30/C56: next intersection", ["C30", "C56"],
   "if Qltb (dist d) t then dist d else t", "if Qltb t (dist d) then dist d else t")

# ---------------------------------------------------------------- ensembles
mu("en01", "Ensemble.v", "result", "not normalised", "C34/C46: results are probabilities", ["C34", "C46", "C35", "C38", "C39"],
   "map (fun fn => let v := Exact (fst fn / safe (snd fn))%Qc in", "map (fun fn => let v := Exact (fst fn)%Qc in")
mu("en02", "Ensemble.v", "result", "heightheight without the root", "C39: the root of the mean square", ["C39"],
   "match e_stat e with S_heightheight => root v | _ => v end)", "v)")
mu("en03", "Ensemble.v", "var_of", "biased estimator", "C44: sample variance", ["C44"],
   "* n / (n - 1))%Qc.", ")%Qc.")
mu("en04", "Ensemble.v", "variance", "S2 returns a variance", "C45: variance throws for other statistics", ["C45"],
   "| S_mean => Ok v\n", "| S_mean | S_S2 => Ok v\n")
mu("en05", "Ensemble.v", "linspace", "step divided by n", "C32: distances are whole numbers", ["C32", "C33"],
   "zq (Z.max 1 (n - 1))", "zq n")
mu("en06", "Ensemble.v", "distance_axis", "second axis uses the padding of the first", "C32: distance along an axis", ["C32", "C33"],
   "linspace (fst P1) (snd P1) n1 i", "linspace (fst P0) (snd P1) n1 i")
mu("en07", "Ensemble.v", "sum_squares", "the spacing is not squared", "C33: scaled distance", ["C33"],
   "(snd x * h i) * (snd x * h i))%Qc", "(snd x * h i) * (snd x))%Qc")
mu("en08", "Ensemble.v", "pad_mask", "padding is not masked", "C34: nothing outside the image counts", ["C34", "C36", "C37", "C38", "C39"],
   "pad_constant (if per then 0 else 1) m P.", "pad_constant 0 m P.")
mu("en09", "Ensemble.v", "positions", "the last plane is not visited", "C34: every pixel is an origin", ["C34", "C35", "C37", "C38", "C39"],
   "loop3 p0 (d0 F - q0) p1 (d1 F - q1) p2 (d2 F - q2).", "loop3 p0 (d0 F - q0) p1 (d1 F - q1 - 1) p2 (d2 F - q2).")
mu("en10", "Ensemble.v", "window", "the window is mirrored", "C34: f(x) g(x + dx)", ["C34", "C35", "C37", "C38"],
   "then Ok (fun a b c => at3 z G (h - p0 + a) (i - p1 + b) (j - p2 + c))", "then Ok (fun a b c => at3 z G (h + q0 - a) (i + q1 - b) (j + q2 - c))")
mu("en11", "Ensemble.v", "S2_point", "the mask of f is ignored", "C36: masked pixels are ignored", ["C34", "C36"],
   "m <- aget3 Fmask x ;;\n  if negb (m =? 0) then Ok e\n  else\n    Gi <- window 0%Qc P G x ;;\n    Gm <- window 0 P Gmask x ;;",
   "m <- aget3 Fmask x ;;\n  if false then Ok e\n  else\n    Gi <- window 0%Qc P G x ;;\n    Gm <- window 0 P Gmask x ;;")
mu("en12", "Ensemble.v", "S2_point", "pixels with f = 0 do not count in the norm", "C34: the norm counts all pairs", ["C34", "C35", "C46"],
   "(fun a b c => f * Gi a b c * Gmii a b c)%Qc)\n          (e_second e) (plus (e_norm e) Gmii)).",
   "(fun a b c => f * Gi a b c * Gmii a b c)%Qc)\n          (e_second e) (if Qceq_b f 0%Qc then e_norm e else plus (e_norm e) Gmii)).")
mu("en13", "Ensemble.v", "S2_point", "g is not multiplied by its mask", "C36: masked pixels are ignored", ["C34", "C36"],
   "plus (e_first e) (fun a b c => f * Gi a b c * Gmii a b c)%Qc)\n          (e_second e) (plus (e_norm e) Gmii)).",
   "plus (e_first e) (fun a b c => f * Gi a b c)%Qc)\n          (e_second e) (plus (e_norm e) Gmii)).")
mu("en14", "Ensemble.v", "S2", "f and g swapped", "C34: f(x) g(x + dx)", ["C34", "C35"],
   "foldM (S2_point P F G (pad_mask", "foldM (S2_point P G F (pad_mask")
mu("en15", "Ensemble.v", "S2", "the statistic is not recorded", "C45: an ensemble holds one statistic", ["C45"],
   "(positions P F) (set_stat e S_S2).", "(positions P F) e.")
mu("en16", "Ensemble.v", "C2_point", "background counts as a cluster", "C37: only clusters count", ["C37"],
   "(if f =? 0 then e_first e\n", "(if f =? -1 then e_first e\n")
mu("en17", "Ensemble.v", "C2_point", "any two clusters are equal", "C37: same cluster", ["C37"],
   "if f =? Gi a b c then Gmii a b c else 0%Qc", "if negb (Gi a b c =? 0) then Gmii a b c else 0%Qc")
mu("en18", "Ensemble.v", "W2_point", "the norm is not weighted", "C38: weighted mean", ["C38"],
   "(plus (e_norm e) (fun a b c => f * Gmii a b c)%Qc)).", "(plus (e_norm e) Gmii)).")
mu("en19", "Ensemble.v", "hh_point", "difference is not squared", "C39: squared differences", ["C39"],
   "let sq a b c := ((Fi a b c - f) * (Fi a b c - f))%Qc in", "let sq a b c := (Fi a b c - f)%Qc in")
mu("en20", "Ensemble.v", "hh_point", "second moment is the square of the first", "C44/C39: data_second", ["C39", "C44"],
   "(fun a b c => sq a b c * sq a b c * Fmii a b c)%Qc", "(fun a b c => sq a b c * Fmii a b c)%Qc")
mu("en21", "Ensemble.v", "hh_point", "the window is not masked", "C36: masked pixels are ignored", ["C39", "C36"],
   "(plus (e_first e) (fun a b c => sq a b c * Fmii a b c)%Qc)", "(plus (e_first e) (fun a b c => sq a b c)%Qc)")
mu("en22", "Ensemble.v", "mean", "second moment is overwritten instead of added", "C43: realizations add up", ["C43", "C44"],
   "b <- plus0 (e_second e) (qsum (map (fun x => x * x)%Qc (i_vals f))) ;;", "b <- plus0 (tab 1 1 1 (fun _ _ _ => 0%Qc)) (qsum (map (fun x => x * x)%Qc (i_vals f))) ;;")
mu("en23", "Ensemble.v", "mean_masked", "masked pixels count in the norm", "C44: masked pixels are ignored", ["C44"],
   "(zq (zsum (map (fun m => 1 - m) (i_vals fmask))))", "(zq (lenZ (i_vals f)))")
mu("en24", "Ensemble.v", "unlocked", "any statistic may be added", "C45: another statistic throws", ["C45"],
   "stat_eqb (e_stat e) s || stat_eqb (e_stat e) Unset.", "true.")
mu("en25", "Ensemble.v", "interior", "the border is two pixels wide", "C40: end points are the border of the roi", ["C40"],
   "(1 <=? k) && (k <? n - 1)", "(2 <=? k) && (k <? n - 2)")
mu("en26", "Ensemble.v", "L_walk", "the walk goes on after the phase ended", "C40: whole segments inside the phase", ["C40"],
   "if v =? 0 then Ok first\n", "if v =? 0 then L_walk P F x rows' first\n")
mu("en27", "Ensemble.v", "L_norm", "counts one per path instead of one per pixel of the image", "C40: probability", ["C40"],
   "incr norm (p0 + dh) (p1 + di) (p2 + dj) (zq size)", "incr norm (p0 + dh) (p1 + di) (p2 + dj) 1%Qc")
mu("en28", "Ensemble.v", "L", "periodicity is ignored", "C40: L of a periodic image", ["C40"],
   "F <- pad_mode (e_per e) 0 f3 P ;;\n  foldM (L_stamp", "F <- pad_mode false 0 f3 P ;;\n  foldM (L_stamp")
mu("en29", "Ensemble.v", "W2c_point", "centres are not compared with the clusters", "C41: what is counted", ["C41"],
   "if negb (c =? label) then Ok fn\n    else W2c_walk", "W2c_walk")
mu("en30", "Ensemble.v", "W2c_walk", "the mask is ignored", "C41: masked pixels are not counted", ["C41"],
   "if m =? 0 then\n                     to <-", "if m =? m then\n                     to <-")
mu("en31", "Ensemble.v", "W2c_walk", "q is advanced only outside of the cluster (repair)", "C41_W2c_skips_cluster_refuted is about the code as it is", ["C41"],
   "W2c_walk P C Fm F label x all rest' (q + 1) fn", "W2c_walk P C Fm F label x all rest' (if 0 <=? q then q + 1 else q) fn")
mu("en32", "Ensemble.v", "W2c_walk", "third axis uses its own padding (repair)", "C42_W2c_stays_inside_refuted is about the code as it is", ["C42"],
   "f <- incr (fst fn) (p0 + th) (p1 + ti) (p1 + tj) v ;;", "f <- incr (fst fn) (p0 + th) (p1 + ti) (p2 + tj) v ;;")
mu("en33", "Ensemble.v", "mask2", "the mask of g is replaced by that of f", "C34: each image has its own mask", ["C34", "C37"],
   "match m with Some m => m | None => (zeros (i_shape f), zeros (i_shape f)) end.", "match m with Some m => (fst m, fst m) | None => (zeros (i_shape f), zeros (i_shape f)) end.")
mu("en34", "Ensemble.v", "ensemble", "the norm starts at one", "C44: data are zero before anything is added", ["C34", "C44"],
   "Ok (mkens Unset per var roi z z z).", "Ok (mkens Unset per var roi z z (tab n0 n1 n2 (fun _ _ _ => 1%Qc))).")
mu("en35", "Ensemble.v", "safe", "no protection against a zero norm", "C34: result is 0 where nothing was counted", ["C34"],
   "if Qclt_b 0%Qc n then n else 1%Qc.", "n.")

# ---------------------------------------------------------------- centers
CE = "Center.v"
mu("ce01", CE, "mean_of", "divides by n - 1", "C47: the centre is the mean", ["C47", "C48"], "quotient (rsum x) (INR (length x))", "quotient (rsum x) (INR (length x - 1))")
mu("ce02", CE, "average_of", "weights are not applied to the values", "C47: weighted mean", ["C47", "C48", "C58"], "quotient (rsum (rmap2 Rmult x w)) (rsum w)", "quotient (rsum x) (rsum w)")
mu("ce03", CE, "average_of", "divides by the number of positions", "C47: weighted mean", ["C47", "C58"], "quotient (rsum (rmap2 Rmult x w)) (rsum w)", "quotient (rsum (rmap2 Rmult x w)) (INR (length x))")
mu("ce04", CE, "axis_center", "PI is not added to the angle", "C48: the centre is inside the box", ["C48", "C57"], "let theta_bar := a + PI in", "let theta_bar := a in")
mu("ce05", CE, "axis_center", "the averages are not negated", "C48: circular mean", ["C48", "C57"], "atan2 minus (opposite zeta_bar) (opposite xi_bar) with", "atan2 minus zeta_bar xi_bar with")
mu("ce06", CE, "axis_center", "sine and cosine swapped", "C48: circular mean", ["C48", "C57"], "atan2 minus (opposite zeta_bar) (opposite xi_bar) with", "atan2 minus (opposite xi_bar) (opposite zeta_bar) with")
mu("ce07", CE, "axis_center", "the angle is not scaled back by the length", "C48: the centre is in pixels", ["C48", "C57"], "Num (len * theta_bar / (2 * PI))", "Num (theta_bar / (2 * PI))")
mu("ce08", CE, "axis_center", "angle is PI x / n", "C48: one turn is one box", ["C48", "C57"], "map (fun v => 2 * PI * v / len) x", "map (fun v => PI * v / len) x")
mu("ce09", CE, "axis_center", "periodicity is inverted", "C47: not periodic: the mean", ["C47", "C48"], "if negb periodic then avg x", "if periodic then avg x")
mu("ce10", CE, "all_axes", "every axis uses the first column", "C47: each axis has its own mean", ["C47", "C48"], ":: all_axes periodic avg minus rest positions (S k)", ":: all_axes periodic avg minus rest positions k")
mu("ce11", CE, "no_positions", "an empty list of positions is not caught", "C47: no position gives zero", ["C47", "C49"], "  | [], _ => true\n  | _, [] => true", "  | [], _ => true")
mu("ce12", CE, "center_of_mass", "the number of weights is not checked", "C47: weights must match", ["C47", "C58"], "  else if negb (Nat.eqb (length weights) (length positions)) then Throw\n", "")
mu("ce13", CE, "center_of_mass", "weights are ignored", "C47: weighted mean", ["C47", "C48", "C58", "C49"], "Ok (all_axes periodic (average_of weights)", "Ok (all_axes periodic mean_of")
mu("ce14", CE, "where_equal", "all non-zero pixels instead of the label", "C49: one label at a time", ["C49"], "if Z.eqb l name then 1%Z else 0%Z", "if Z.eqb l 0 then 0%Z else 1%Z")
mu("ce15", CE, "labels_centers", "the flag periodic is not passed on", "C49: periodic labels", ["C49"], "else center (map IZR shape) positions periodic) names.", "else center (map IZR shape) positions true) names.")
mu("ce16", CE, "weights_at", "weights in order of the image instead of the positions", "C49: each pixel has its own weight", ["C49"], "mapM (fun p => vget w (dot p (strides wshape))) pos.", "mapM (vget w) (zrange 0 (lenZ pos)).")
mu("ce17", CE, "labels_centers_of_mass", "the shape assertion is dropped", "C49: weights must have the shape of the labels", ["C49"], "  _ <- assertb asrt (eqbl shape wshape) ;;\n", "")
mu("ce18", CE, "atan2", "upper half plane: PI is not added for negative x", "C48: circular mean", ["C48", "C57"], "if Rlt_dec 0 y then atan (y / x) + PI\n", "if Rlt_dec 0 y then atan (y / x)\n")
mu("ce30", CE, "atan2_num", "a vanishing pair of averages gives PI for positive weights", "C48: the centre is inside the box", ["C48"], "else if minus then - PI else PI\n  else if Rlt_dec 0 y", "else PI\n  else if Rlt_dec 0 y")
mu("ce31", CE, "atan2", "infinite averages: quadrants swapped", "C48: weights that cancel", ["C48"], "let a := if t then 3 * PI / 4 else PI / 4 in", "let a := if t then PI / 4 else 3 * PI / 4 in")
mu("ce32", CE, "quotient", "x / 0 is not a number", "C48: weights that cancel", ["C48"], "if Rlt_dec 0 x then Inf false else if Rlt_dec x 0 then Inf true else NaN", "NaN")
mu("ce33", CE, "center_of_mass", "the sign of the total weight is ignored", "C58: a negative factor changes the coordinate", ["C58"], "(if Rlt_dec (rsum weights) 0 then false else true)", "true")
mu("ce19", CE, "to_double", "positions start at one", "C49: positions are pixel indices", ["C49"], "map (map IZR) l.", "map (map (fun x => IZR (x + 1))) l.")

# ---------------------------------------------------------------- circles
CI = "Circles.v"
mu("ci01", CI, "disc", "dr <= r", "C50: radius is exclusive", ["C50", "C59"], "Z.sqrt_up (fst d ^ 2 + snd d ^ 2) <? r)", "Z.sqrt_up (fst d ^ 2 + snd d ^ 2) <=? r)")
mu("ci02", CI, "disc", "square root rounded down", "C50: distance below the radius", ["C50"], "Z.sqrt_up (fst d ^ 2", "Z.sqrt (fst d ^ 2")
mu("ci03", CI, "disc", "columns start at 0", "C50: whole discs", ["C50"], "(list_prod (zrange (- r) (r + 1)) (zrange (- r) (r + 1)))", "(list_prod (zrange (- r) (r + 1)) (zrange 0 (r + 1)))")
mu("ci04", CI, "disc", "squares are not added for the columns", "C50: discs are round", ["C50"], "(fst d ^ 2 + snd d ^ 2)", "(fst d ^ 2)")
mu("ci05", CI, "paint_periodic", "columns are not wrapped", "C50: periodic images wrap", ["C50", "C59"], "vset out (a mod n * m + b mod m) 1.", "vset out (a mod n * m + b) 1.")
mu("ci06", CI, "paint_periodic", "rows wrap with the number of columns", "C50: periodic images wrap", ["C50", "C59"], "vset out (a mod n * m + b mod m) 1.", "vset out (a mod m * m + b mod m) 1.")
mu("ci07", CI, "paint_inside", "the last row is included twice (a <= n)", "C50: nothing is written outside", ["C50", "C59"], "(a <? n) && (0 <=? b)", "(a <=? n) && (0 <=? b)")
mu("ci08", CI, "paint_inside", "negative columns are not excluded", "C50: discs are cut off at the border", ["C50"], "(a <? n) && (0 <=? b) && (b <? m)", "(a <? n) && (b <? m)")
mu("ci09", CI, "paint_circle", "row and column swapped", "C50: centres", ["C50"], "n m out (x + fst d) (y + snd d))", "n m out (y + fst d) (x + snd d))")
mu("ci10", CI, "dummy_circles", "the first circle is skipped", "C50: the union of all discs", ["C50"], "(paint_circle per n m row col r) (zrange 0 (lenZ row))", "(paint_circle per n m row col r) (zrange 1 (lenZ row))")
mu("ci11", CI, "dummy_circles", "the number of radii is not checked", "C50: bad arguments throw", ["C50"], "  _ <- assertb asrt (lenZ row =? lenZ r) ;;\n", "")
mu("ci12", CI, "grid_row", "shift by the pitch instead of half of it", "C59: circles stay near their place in the grid", ["C59"], "(w_row w - n / (2 * twentieth n))", "(w_row w - n / twentieth n)")
mu("ci13", CI, "scaled_radius", "factor two is dropped", "C59: radii up to twice the default", ["C59"], "Int_part (IZR r * 2 * u).", "Int_part (IZR r * u).")
mu("ci14", CI, "grid_col", "column of the grid by division", "C59: one circle per cell of the grid", ["C59"], "k mod twentieth m * m / twentieth m", "k / twentieth m * m / twentieth m")

# ---------------------------------------------------------------- structure factor
ST = "Structure.v"
mu("st01", ST, "stop_of", "odd n: the middle frequency is dropped", "C52: every stored frequency", ["C52", "C53", "C61"], "if n mod 2 =? 0 then n / 2 else n / 2 + 1.", "n / 2.")
mu("st02", ST, "start_of", "even n: the Nyquist entry belongs to the upper half", "C52: every stored frequency", ["C52", "C53"], "if n mod 2 =? 0 then stop_of n + 1 else stop_of n.", "stop_of n.")
mu("st03", ST, "sample1", "the upper half is not flipped before the product", "C52: q pairs with -q", ["C52"], "low <- vmul (vslice 1 e hat) (vflip (vslice s n hat)) ;;", "low <- vmul (vslice 1 e hat) (vslice s n hat) ;;")
mu("st04", ST, "sample1", "the lower half is copied without flipping", "C52: entry of -q", ["C52", "C60"], "ret <- vassign ret s n (vflip (vslice 1 e ret)) ;;", "ret <- vassign ret s n (vslice 1 e ret) ;;")
mu("st05", ST, "sample1", "not divided by n", "C52: normalisation", ["C52", "C60"], "Ok (mkvec n (fun k => (vat ret k / IZR n)%R)).", "Ok (mkvec n (fun k => vat ret k)).")
mu("st06", ST, "sample1", "u(0) instead of its square", "C52: the entry of q = 0", ["C52"], "vput ret 0 (cast dt (fst (cmul (vat hat 0) (vat hat 0))))", "vput ret 0 (cast dt (fst (vat hat 0)))")
mu("st07", ST, "cmul", "sign of the product of imaginary parts", "C52: complex product", ["C52", "C53"], "((fst x * fst y - snd x * snd y)%R,", "((fst x * fst y + snd x * snd y)%R,")
mu("st08", ST, "sample2", "first row: not flipped", "C53: q pairs with -q in the first row", ["C53"], "v <- vmul (vslice 1 ec (mrow hat 0)) (vflip (vslice sc m (mrow hat 0))) ;;", "v <- vmul (vslice 1 ec (mrow hat 0)) (vslice sc m (mrow hat 0)) ;;")
mu("st09", ST, "sample2", "the block is flipped along the rows only", "C53: q pairs with -q", ["C53"], "M <- mmul (mslice 1 er 1 ec hat) (mflip (mslice sr n sc m hat)) ;;", "M <- mmul (mslice 1 er 1 ec hat) (mflip0 (mslice sr n sc m hat)) ;;")
mu("st10", ST, "sample2", "normalised by the number of rows", "C53: normalisation", ["C53"], "(mat_at ret i j / IZR (n * m))%R", "(mat_at ret i j / IZR n)%R")
mu("st11", ST, "allocate", "the Nyquist column is not set to NaN", "C53: what is not measured is NaN", ["C53"], "((nth 0 i 0 =? n / 2) || (nth 1 i 0 =? m / 2))", "(nth 0 i 0 =? n / 2)")
mu("st12", ST, "allocate", "Nyquist entry off by one", "C52: what is not measured is NaN", ["C52"], "(n mod 2 =? 0) && (nth 0 i 0 =? n / 2) then None", "(n mod 2 =? 0) && (nth 0 i 0 =? n / 2 - 1) then None")
mu("st13", ST, "accumulate", "overwritten instead of added", "C52: mean over samples", ["C52", "C53"], "Some (y + x i)%R", "Some (x i)%R")
mu("st14", ST, "accumulate", "samples are not counted", "C52: mean over samples", ["C52", "C53"], "(st_norm st + 1))", "(st_norm st))")
mu("st15", ST, "fftfreq", "negative frequencies are not negative", "C61: q labels the entries", ["C61"], "else k - ((n - 1) / 2 + 1) - n / 2)", "else k)")
mu("st16", ST, "q_of", "axes swapped", "C61: q along an axis", ["C61"], "      | Some 0 => Ok (fun i => fftfreq n (nth 0 i 0))\n      | Some 1", "      | Some 0 => Ok (fun i => fftfreq m (nth 1 i 0))\n      | Some 1")
mu("st17", ST, "qnorm", "square root is missing", "C61: qnorm is a norm", ["C61"], "sqrt (fftfreq n (nth 0%nat i 0%Z) ^ 2 + fftfreq m (nth 1%nat i 0%Z) ^ 2)%R", "(fftfreq n (nth 0%nat i 0%Z) ^ 2 + fftfreq m (nth 1%nat i 0%Z) ^ 2)%R")
mu("st18", ST, "accumulate", "the shape is not checked", "C52: samples have one shape", ["C52", "C53"], "if shape_eqb (st_shape st) shape\n", "if true\n")

# ---------------------------------------------------------------- version, repr, Python
MI = "Misc.v"
mu("mi01", MI, "unquote", "nothing is erased after remove", "C55: no quotes", ["C55"], "Ok (firstn (Z.to_nat (snd a)) (fst a)).", "Ok (fst a).")
mu("mi02", MI, "std_remove", "the character behind a quote is lost", "C55: everything but quotes is kept", ["C55"], "if Ascii.eqb x c then Ok a", "if Ascii.eqb x c then Ok (fst a, snd a - 1)")
mu("mi03", MI, "shape_to_string", "no separator", "C62: unambiguous", ["C62"], '(if (i <? lenZ shape - 1)%Z then ", " else "")', '""')
mu("mi04", MI, "shape_to_string", "separator also behind the last", "C62: format", ["C62"], '(if (i <? lenZ shape - 1)%Z then ", " else "")', '", "')
mu("mi05", MI, "repr", "rank minus one", "C62: shows the rank", ["C62"], 'digits (lenZ shape) ++ " "', 'digits (lenZ shape - 1) ++ " "')
mu("mi06", MI, "class_name", "p is forgotten", "C63: periodic classes have their own name", ["C63"], '(if per then "p" else ""))%string.', '"")%string.')
mu("mi07", MI, "registered", "rank 3 is not registered", "C63: ranks 1 to 3", ["C63"], "map (fun d => (class_name d true, (d, true))) (zrange 1 4) ++", "map (fun d => (class_name d true, (d, true))) (zrange 1 3) ++")
mu("mi08", MI, "py_labeller", "rank 2: the periodic class for both", "C63: the periodicity asked for", ["C63"], 'cls <- lookup (if per then "ClusterLabeller2p" else "ClusterLabeller2") ;;', 'cls <- lookup "ClusterLabeller2p" ;;')
mu("mi09", MI, "construct", "the kernel is ignored", "C63: the kernel asked for", ["C63"], "if lenZ ks =? fst cls then make_kernel asrt shape (snd cls) ks kv else Throw", "if lenZ ks =? fst cls then make_default shape (snd cls) else Throw")
mu("mi10", MI, "py_size", "bound to size (the repair)", "C54: the refutation is about the binding", ["C54"], "Definition py_size (g : cfg) (s : st) : pyvalue := PyList (cpp_shape g).", "Definition py_size (g : cfg) (s : st) : pyvalue := PyInt (cpp_size s).")

mu("ke01", "Kernel.v", "nearest", "rank 2: the corners are set", "C51: face neighbours only", ["C51", "C12"], "| S (S O) => Ok (shape, map (fun c => if existsb (Z.eqb 1) c then 1 else 0) pos)", "| S (S O) => Ok (shape, map (fun c => 1) pos)")
mu("ke02", "Kernel.v", "nearest", "rank 1: the centre only", "C51: face neighbours", ["C51", "C12"], "| S O => Ok (shape, map (fun _ => 1) pos)", "| S O => Ok (shape, map (fun c => if forallb (Z.eqb 1) c then 1 else 0) pos)")
# any-kernel partition, reports and batching
mu("cl39", "Cluster.v", "seq_inner", "a pixel that merely joins a cluster is reported too", "C11: only changes and revisits are reported", ["C11"],
   "if negb (c_new s' =? nl) || negb (c_nmerge s' =? nm) then Ok (s', i, true)", "if true then Ok (s', i, true)")

# ---------------------------------------------------------------- Python bindings of Ensemble
EP = "EnsemblePy.v"
mu("ep01", EP, "trunc", "rounds down instead of towards zero", "C77: what is lost is the fraction, towards zero", ["C77"], "Z.quot (Qnum (this q)) (Zpos (Qden (this q)))", "Z.div (Qnum (this q)) (Zpos (Qden (this q)))")
mu("ep02", EP, "exact_match", "float32 counts as double", "C77: exactly which dtypes are rounded", ["C77"], "| PInt, Int32 | PDouble, Float64 => true", "| PInt, Int32 | PDouble, Float64 | PDouble, Float32 => true")
mu("ep03", EP, "exact_match", "int64 counts as int", "C77: exactly which dtypes are rounded", ["C77"], "| PInt, Int32 | PDouble, Float64 => true", "| PInt, Int32 | PInt, Int64 | PDouble, Float64 => true")
mu("ep04", EP, "dispatch", "the pass with conversion comes first", "C77: float64 images are analysed as they are", ["C77"], "match find (fun o => applies false (o_params o) args) os with", "match find (fun o => applies true (o_params o) args) os with")
mu("ep05", EP, "overloads", "S2: the images are swapped in the double overload", "C77: S2 of the images that are passed", ["C77"], "[ADouble f; ADouble g] => Ok (CallS2 f g None)", "[ADouble f; ADouble g] => Ok (CallS2 g f None)")
mu("ep06", EP, "overloads", "S2: the masks are swapped", "C77: the masks that are passed", ["C77"], "Ok (CallS2 f g (Some (fm, gm)))", "Ok (CallS2 f g (Some (gm, fm)))")
mu("ep07", EP, "overloads", "W2c: clusters and centers are swapped", "C77: W2c of the images that are passed", ["C77"], "Ok (CallW2c c ce f (Some fm) mode)", "Ok (CallW2c ce c f (Some fm) mode)")
mu("ep08", EP, "overloads", "mean: the mask is dropped", "C77: the masks that are passed", ["C77"], "Ok (MeanMasked f fm)", "Ok (Mean f)")
mu("ep09", EP, "overloads", "W2: no overload for doubles", "C77: float64 images are analysed as they are", ["C77"], "        mkoverload [PDouble; PDouble] (fun l => match l with [ADouble w; ADouble f] => Ok (CallW2 w f None) | _ => UB end);\n", "")
mu("ep10", EP, "overloads", "heightheight: integers first", "C77: float images are analysed as they are", ["C77"], "      [ mkoverload [PDouble] (fun l => match l with [ADouble f] => Ok (CallHH f None) | _ => UB end);", "      [ mkoverload [PInt] (fun l => match l with [AInt f] => Ok (CallHH (widen f) None) | _ => UB end);\n        mkoverload [PDouble] (fun l => match l with [ADouble f] => Ok (CallHH f None) | _ => UB end);")
mu("ep11", EP, "overloads", "S2: the overload for doubles comes first (the repair)", "C77: the refutation is about the order", ["C77"], "      [ mkoverload [PInt; PInt] (fun l => match l with [AInt f; AInt g] => Ok (CallS2 (widen f) (widen g) None) | _ => UB end);\n        mkoverload [PDouble; PDouble] (fun l => match l with [ADouble f; ADouble g] => Ok (CallS2 f g None) | _ => UB end);", "      [ mkoverload [PDouble; PDouble] (fun l => match l with [ADouble f; ADouble g] => Ok (CallS2 f g None) | _ => UB end);\n        mkoverload [PInt; PInt] (fun l => match l with [AInt f; AInt g] => Ok (CallS2 (widen f) (widen g) None) | _ => UB end);")
mu("ep12", EP, "py_ensemble", "periodic is false by default", "C75: defaults of the constructor", ["C75"], "Definition py_ensemble (asrt : bool) (roi : list Z) (periodic variance : option bool) : res ens :=\n  ensemble asrt roi (match periodic with Some b => b | None => true end)", "Definition py_ensemble (asrt : bool) (roi : list Z) (periodic variance : option bool) : res ens :=\n  ensemble asrt roi (match periodic with Some b => b | None => false end)")
mu("ep13", EP, "py_ensemble", "variance is true by default (the repair)", "C75: the refutation is about the default", ["C75"], "(match variance with Some b => b | None => false end)", "(match variance with Some b => b | None => true end)")
mu("ep14", EP, "cpp_ensemble", "variance is false by default", "C75: the default in C++", ["C75"], "(match variance with Some b => b | None => true end).", "(match variance with Some b => b | None => false end).")
mu("ep15", EP, "py_single", "the wrapper ignores periodic", "C77: functions for a single image", ["C77", "C76"], "| _ => c <- py_call m args mode ;; single asrt roi per c", "| _ => c <- py_call m args mode ;; single asrt roi true c")
mu("ep16", EP, "load", "the image is flattened", "C77: the images that are passed", ["C77"], "| PDouble => Ok (ADouble (mkimg (a_shape a) (a_vals a)))", "| PDouble => Ok (ADouble (mkimg [lenZ (a_vals a)] (a_vals a)))")
mu("ep17", EP, "int_range", "integers beyond 2^31 wrap silently", "C77: casting out of range is undefined", ["C77"], "(- 2 ^ 31 <=? z) && (z <? 2 ^ 31)", "true")

# ---------------------------------------------------------------- IEEE 754
EF = "EnsembleFloat.v"
mu("ef01", EF, "fsafe", "nothing is replaced: 0 / 0", "C78: result of pixels without data is 0", ["C78"], "if dle n dzero then done else n.", "n.")
mu("ef02", EF, "fsafe", "one is replaced too", "C78: result is the rounded average", ["C78"], "if dle n dzero then done else n.", "if dle n done then dz 2 else n.")
mu("ef03", EF, "fresult", "square root for all statistics", "C78: result is the rounded average", ["C78"], "match f_stat e with S_heightheight => pow_half L v | _ => v end)", "pow_half L v)")
mu("ef04", EF, "fvar_of", "not divided by n - 1", "C82: none (the sign is the same)", [], "ddiv (dtimes (dminus (ddiv s n) (pow2 L (ddiv f n))) n) (dminus n done).", "dminus (ddiv s n) (pow2 L (ddiv f n)).")
mu("ef05", EF, "fvar_of", "operands of the subtraction swapped", "C82: the variance is not negative", ["C82"], "dminus (ddiv s n) (pow2 L (ddiv f n))", "dminus (pow2 L (ddiv f n)) (ddiv s n)")
mu("ef06", EF, "inverse", "the mask itself", "C78: masked pixels do not count", ["C78"], "dminus done (dz m).", "dz m.")
mu("ef07", EF, "fS2_point", "the product is not masked", "C78: masked pixels do not count", ["C78"], "fun a b c => dtimes (dtimes f (Gi a b c)) (Gmii a b c)))\n          (f_second e) (fplus (f_norm e) Gmii)).\n\nDefinition fS2 ", "fun a b c => dtimes f (Gi a b c)))\n          (f_second e) (fplus (f_norm e) Gmii)).\n\nDefinition fS2 ")
mu("ef08", EF, "fS2_point", "the masked pixel is skipped by a condition (the repair)", "C79: the refutation is about the factor 0", ["C79"], "fun a b c => dtimes (dtimes f (Gi a b c)) (Gmii a b c)))\n          (f_second e) (fplus (f_norm e) Gmii)).\n\nDefinition fS2 ", "fun a b c => if Gm a b c =? 0 then dtimes f (Gi a b c) else dzero))\n          (f_second e) (fplus (f_norm e) Gmii)).\n\nDefinition fS2 ")
mu("ef09", EF, "fhh_point", "fourth powers are added to the first moment", "C78: sums of squares", ["C78"], "(fplus (f_first e) (fun a b c => dtimes (pow2 L", "(fplus (f_first e) (fun a b c => dtimes (pow4 L")
mu("ef10", EF, "fmean_masked", "the mask is a factor", "C79: mean ignores masked values", ["C79"], "let w (x : double * Z) (y : double) := if snd x =? 0 then y else dzero in", "let w (x : double * Z) (y : double) := dtimes y (inverse (snd x)) in")
mu("ef11", EF, "fmean", "squares are not summed", "C82: the variance is not negative", ["C78", "C82"], "(total L (map (pow2 L) (i_vals f)))", "(total L (i_vals f))")
mu("ef12", EF, "fmean", "the image is counted once", "C82: the mean lies between the extremes", ["C78", "C82"], "(dz (lenZ (i_vals f))) ;;", "done ;;")
mu("ef13", EF, "fC2_point", "different labels count", "C78: C2", ["C78"], "if f =? Gi a b c then Gmii a b c else dzero", "if f =? Gi a b c then dzero else Gmii a b c")
mu("ef14", EF, "fL", "normalised by the padded size", "C78: L", ["C78"], "foldM (fL_stamp P F (lenZ (i_vals f)) mode)", "foldM (fL_stamp P F (lenZ (dat F)) mode)")
mu("ef15", EF, "fW2c_walk", "masked pixels are written", "C79: W2c ignores masked values", ["C78", "C79"], "if m =? 0 then\n                     to <- vget all q ;;", "if true then\n                     to <- vget all q ;;")
mu("ef16", EF, "fW2_point", "the weight is not in the normalisation", "C78: W2", ["C78"], "(fplus (f_norm e) (fun a b c => dtimes f (Gmii a b c)))", "(fplus (f_norm e) Gmii)")
mu("ef17", EF, "fmean_masked", "masked pixels are counted", "C78: mean with masks", ["C78", "C82"], "(zsum (map (fun m => 1 - m) (i_vals fmask)))", "(lenZ (i_vals fmask))")

# shapes of Structure
mu("st19", ST, "shape_eqb", "shapes are never compared", "C81: samples have one shape", ["C81"], "if list_eq_dec Z.eq_dec a b then true else false.", "if list_eq_dec Z.eq_dec a b then true else true.")
mu("st20", ST, "sample2", "empty columns are let through", "C81: no axis is empty", ["C81"], "if (n <? 1) || (m <? 1) then Throw else", "if (n <? 1) || (m <? 0) then Throw else")
mu("st21", ST, "cmul", "wrong imaginary part", "C52: the power is the product with the opposite frequency", ["C52", "C53"], "(fst x * snd y + snd x * fst y)%R)", "(fst x * fst y + snd x * fst y)%R)")

# ---------------------------------------------------------------- actual/full in doubles
PF = "PathFloat.v"
mu("pf01", PF, "fdist", "sign of the distance is wrong", "C83: the machine visits the pixels of the exact algorithm", ["C83", "C84"], "ddiv (dminus (g_next d) (g_x d)) (g_v d)", "ddiv (dminus (g_x d) (g_next d)) (g_v d)")
mu("pf02", PF, "fcrosses", "no fabs", "C83: only crossings at the same place are one", ["C83", "C84"], "dlt (dabs (dminus (fdist d) tm)) tolerance", "dlt (dminus (fdist d) tm) tolerance")
mu("pf03", PF, "tolerance", "1e-3 instead of 1e-6", "C83: exact up to 707 pixels", ["C83", "C84"], "ddiv done (dz 1000000)", "ddiv done (dz 1000)")
mu("pf04", PF, "fcross", "next is not advanced", "C83: the path reaches its target", ["C83", "C84"], "(dplus (g_next d) (g_sign d)) (g_x d).", "(g_next d) (g_x d).")
mu("pf05", PF, "fmove", "x is relative to the current pixel", "C83: no drift along the line", ["C83"], "(dplus (dz (g_from d)) (dtimes (g_v d) tm))", "(dplus (dz (g_c d)) (dtimes (g_v d) tm))")
mu("pf06", PF, "ftmin_from", "largest instead of smallest distance", "C83: the nearest crossing comes first", ["C83", "C84"], "if dlt (fdist d) t then fdist d else t", "if dlt (fdist d) t then t else fdist d")
mu("pf07", PF, "fline_axis", "first crossing at distance one instead of one half", "C83: pixels are crossed half way", ["C83", "C84"], "(dtimes sign half) (dz p)", "(dtimes sign done) (dz p)")
mu("pf08", PF, "dint", "rounds away from zero for negative numbers", "C83: steps of one pixel", ["C83", "C84"], "if s then - z else z", "if s then - z - 1 else z")
mu("pf09", PF, "fcross_each", "the row is stored before the crossing", "C83: full ends at its target", ["C83"], "then findex (done ++ fcross d :: todo') ::", "then findex (done ++ d :: todo') ::")
mu("pf10", PF, "freached", "one axis is enough", "C83: the path reaches its target", ["C83"], "forallb (fun d => g_c d =? g_to d) l", "existsb (fun d => g_c d =? g_to d) l")
mu("pf11", PF, "fline", "the first pixel is not stored", "C83: the path starts at its start", ["C83"], "Ok (findex l :: rest)", "Ok rest")
mu("pf12", PF, "fpath", "actual and full are exchanged", "C83: modes", ["C83"], "  | actual => fline false fuel x0 x1\n  | full => fline true fuel x0 x1", "  | actual => fline true fuel x0 x1\n  | full => fline false fuel x0 x1")

# ---------------------------------------------------------------- lineal path function
mu("lo01", "Ensemble.v", "L_walk", "the walk goes on after the phase ended", "C88: stretches without interruption; C85: starts in the phase", ["C85", "C88"],
   "if v =? 0 then Ok first\n", "if v =? 0 then L_walk P F x rows' first\n")
mu("lo02", "Ensemble.v", "interior", "only corners are end points", "C87: every element is visited", ["C87", "C40"],
   "Definition interior (n k : Z) : bool := if 1 <? n then (1 <=? k) && (k <? n - 1)", "Definition interior (n k : Z) : bool := if 1 <? n then (0 <=? k) && (k <? n - 1)")
mu("lo03", "Ensemble.v", "L_stamp", "the first pixel of the path is skipped", "C85: starts in the phase; C88: the centre", ["C40", "C85", "C88"],
   "a <- foldM (fun first x => L_walk P F x rows first) (positions P F) (e_first e) ;;\n  c <- foldM (L_norm P size) rows (e_norm e) ;;", "a <- foldM (fun first x => L_walk P F x (tl rows) first) (positions P F) (e_first e) ;;\n  c <- foldM (L_norm P size) rows (e_norm e) ;;")
mu("lo04", "Ensemble.v", "L_walk", "phase one instead of not zero", "C86: only zero and not zero matter", ["C86", "C40"],
   "if v =? 0 then Ok first\n", "if negb (v =? 1) then Ok first\n")
mu("lo05", "Ensemble.v", "L_norm", "counts one per path instead of one per pixel of the image", "C87: normalisation", ["C87", "C85", "C88"],
   "incr norm (p0 + dh) (p1 + di) (p2 + dj) (zq size)", "incr norm (p0 + dh) (p1 + di) (p2 + dj) 1%Qc")
mu("lo06", "Ensemble.v", "L", "a constant border of ones when not periodic (repair)", "C87_L_uniform_refuted is about the code as it is", ["C87", "C40"],
   "F <- pad_mode (e_per e) 0 f3 P ;;\n  foldM (L_stamp", "F <- pad_mode (e_per e) 1 f3 P ;;\n  foldM (L_stamp")

# ---------------------------------------------------------------- relations between statistics, integer samples
mu("re01", "Ensemble.v", "S2", "padded with zeros also if periodic", "C89-C92: periodic images", ["C89", "C91", "C92"], "  F <- pad_mode (e_per e) 0%Qc f3 P ;;\n  G <- pad_mode (e_per e) 0%Qc g3 P ;;\n  foldM (S2_point", "  F <- pad_mode (e_per e) 0%Qc f3 P ;;\n  G <- pad_mode false 0%Qc g3 P ;;\n  foldM (S2_point")
mu("re02", "Ensemble.v", "S2_point", "pixels of the first phase are not normalised when the value is zero", "C89, C90, C91: normalisation", ["C89", "C91"], "    Ok (set_data e\n          (if Qceq_b f 0%Qc then e_first e else plus (e_first e) (fun a b c => f * Gi a b c * Gmii a b c)%Qc)\n          (e_second e) (plus (e_norm e) Gmii)).", "    if Qceq_b f 0%Qc then Ok e else Ok (set_data e\n          (plus (e_first e) (fun a b c => f * Gi a b c * Gmii a b c)%Qc)\n          (e_second e) (plus (e_norm e) Gmii)).")
mu("re03", "Ensemble.v", "W2_point", "weights are not in the norm", "C89: W2 = S2 / <w>", ["C89"], "(plus (e_norm e) (fun a b c => f * Gmii a b c)%Qc)).\n\nDefinition W2 ", "(plus (e_norm e) Gmii)).\n\nDefinition W2 ")
mu("re04", ST, "fft", "twice the frequency", "C52, C92: Fourier transform", ["C52", "C92"], "(cexpm (2 * PI * IZR (j * k) / IZR n))) n.", "(cexpm (PI * IZR (j * k) / IZR n))) n.")
mu("re05", ST, "truncate", "rounds up", "C93: rounded down", ["C93"], "if Rle_dec 0 x then IZR (Int_part x)", "if Rle_dec 0 x then IZR (up x)")
mu("re06", ST, "cast", "integers are kept as floating point numbers (the repair)", "C93: the refutation is about the dtype", ["C93"], "| Integer => truncate x end", "| Integer => x end")
mu("re07", ST, "cast", "floating point numbers are truncated too", "C52: floating point samples", ["C52", "C53", "C92", "C93"], "match dt with Float => x | Integer", "match dt with Float => truncate x | Integer")
mu("re09", ST, "add_sample", "integers are divided before they are stored", "C93: bound on the error", ["C93"], "      r <- sample1 Integer n (fun j => IZR (u j)) (junk 0) ;;", "      r <- sample1 Float n (fun j => truncate (IZR (u j) / 2)%R) (junk 0) ;;")
mu("re10", ST, "sample2", "mixed quadrants: both axes flipped (the repair)", "C53, C60, C92: the refutations are about the wrong product", ["C53", "C60", "C92"], "  M <- mmul (mslice 1 er 1 ec hat) (mflip1 (mslice 1 er sc m hat)) ;;", "  M <- mmul (mslice 1 er sc m hat) (mflip (mslice sr n 1 ec hat)) ;;")

# ---------------------------------------------------------------- bindings outside Ensemble
BP = "BindingsPy.v"
mu("bp01", BP, "dilate_overloads", "periodic is false by default when the kernel and a number are given", "C94: periodic is true when left out", ["C94"],
   'mkparam "kernel" TImage None; mkparam "iterations" TSize (Some (PyNum 1)); mkparam "periodic" TBool (Some (PyBool true))', 'mkparam "kernel" TImage None; mkparam "iterations" TSize (Some (PyNum 1)); mkparam "periodic" TBool (Some (PyBool false))')
mu("bp02", BP, "dilate_overloads", "two iterations by default", "C94: one iteration when left out", ["C94"],
   '([mkparam "f" TImage None; mkparam "iterations" TSize (Some (PyNum 1))', '([mkparam "f" TImage None; mkparam "iterations" TSize (Some (PyNum 2))')
mu("bp03", BP, "dilate_overloads", "image and kernel swapped in the call", "C94: the kernel is the second argument", ["C94"],
   "dilate_n asrt (i_shape f) (i_vals f) (i_shape k) (i_vals k) n per", "dilate_n asrt (i_shape k) (i_vals k) (i_shape f) (i_vals f) n per")
mu("bp04", BP, "dilate_overloads", "periodic is ignored by the overload with a list", "C94: periodic reaches the function", ["C94"],
   "dilate_default asrt (i_shape f) (i_vals f) it per", "dilate_default asrt (i_shape f) (i_vals f) it true")
mu("bp05", BP, "dilate_overloads", "the parameter is called iteration in one overload", "C94: arguments by name", ["C94"],
   '([mkparam "f" TImage None; mkparam "iterations" TVector None', '([mkparam "f" TImage None; mkparam "iteration" TVector None')
mu("bp06", BP, "match_args", "names that are left over are accepted", "C94: unknown names raise", ["C94"],
   "| [], [] => if forallb (fun _ => false) kw then Some [] else None", "| [], [] => Some []")
mu("bp07", BP, "match_args", "too many positional arguments are dropped", "C94: too many arguments raise", ["C94"],
   "| [], _ :: _ => None\n  | p :: ps', x :: pos' =>", "| [], _ :: _ => Some []\n  | p :: ps', x :: pos' =>")
mu("bp08", BP, "load_arg", "lists of any rank", "C94: iterations of rank two raise", ["C94"],
   "&& (lenZ (a_shape a) =? 1)\n      then Some (l <- to_size a", "&& (1 <=? lenZ (a_shape a))\n      then Some (l <- to_size a")
mu("bp09", BP, "load_arg", "a negative number of iterations is accepted", "C94: negative iterations raise", ["C94"],
   "if (0 <=? n) && (n <? two64) then Some (Ok (VSize n))", "if (n <? two64) then Some (Ok (VSize n))")
mu("bp10", BP, "load_arg", "arrays that are not int32 load without conversion", "C94: none (the same overload is selected, or one more exact)", ["C94"],
   "| TImage, PyArr a =>\n      if convert || match a_dtype a with Int32 => true | _ => false end", "| TImage, PyArr a =>\n      if true")
mu("bp11", BP, "call_overloads", "no second pass with conversion", "C94: arrays of other dtypes are converted", ["C94"],
   "| None => match first_some (try_overload true pos kw) os with Some r => r | None => Throw end", "| None => Throw")
mu("bp12", BP, "py_clusters", "periodic negated", "C95: periodic reaches the function", ["C95"],
   "clusters asrt (i_shape i) (i_vals i) per.", "clusters asrt (i_shape i) (i_vals i) (negb per).")
mu("bp13", BP, "to_signed", "rounded down instead of towards zero", "C95: which pixels are foreground", ["C95"],
   "Ok (mkimg (a_shape a) (map trunc (a_vals a))) else UB.", "Ok (mkimg (a_shape a) (map (fun q => (Qnum (this q) / Zpos (Qden (this q)))) (a_vals a))) else UB.")
mu("bp14", BP, "py_labels_map", "arguments swapped", "C95: from a to b", ["C95"],
   "labels_map (i_vals i) (i_vals j).", "labels_map (i_vals j) (i_vals i).")
mu("bp15", BP, "py_labels_rename", "rows and columns of the list swapped", "C95: one row per name", ["C95"],
   "(zn (i_shape r) 0) (zn (i_shape r) 1)", "(zn (i_shape r) 1) (zn (i_shape r) 0)")
mu("bp16", BP, "py_labels_reorder", "rank not checked", "C95: a table is refused", ["C95"],
   "o <- with_rank 1 order (to_long order) ;;", "o <- to_long order ;;")
mu("bp17", BP, "py_labels_sizes_names", "the names are the labels", "C95: sizes of the names given", ["C95"],
   "Ok (labels_sizes_names (i_vals i) (i_vals n)).", "Ok (labels_sizes_names (i_vals n) (i_vals i)).")
mu("bp18", BP, "py_load_op", "images of any rank are accepted", "C96: the wrong rank raises", ["C96"],
   "| PyAddImage a => i <- with_rank (lenZ (g_shape g)) a (to_int a) ;;", "| PyAddImage a => i <- to_int a ;;")
mu("bp19", BP, "to_size", "negative indices are taken as they are", "C96: none (indices are compared unsigned later)", ["C96"],
   "then UB else Ok (map u64 v).", "then UB else Ok v.")
mu("bp20", BP, "py_load_op", "add_sequence calls add_points", "C96: what the same history gives in C++", ["C96"],
   "| PyAddSequence a => l <- with_rank 1 a (to_size a) ;; Ok (AddSequence l)", "| PyAddSequence a => l <- with_rank 1 a (to_size a) ;; Ok (AddPoints l)")
mu("bp21", BP, "py_run_from", "the state after an operation is dropped", "C96: histories", ["C96"],
   "q <- py_run_from asrt g s1 rest ;;", "q <- py_run_from asrt g s rest ;;")
mu("bp22", BP, "load_arg", "booleans are not numbers of iterations", "C94: iterations=True is one iteration", ["C94"],
   "| TSize, PyBool b => Some (Ok (VSize (Z.b2z b)))", "| TSize, PyBool b => None")
mu("bp23", BP, "to_signed", "no check of the range (wraps in practice)", "C95: values out of range are not covered", ["C95"],
   "if forallb (fun q => range (trunc q)) (a_vals a) then Ok", "if true then Ok")
# ---------------------------------------------------------------- doubles that are not integers
mu("er01", EF, "fW2_point", "the weight is applied twice", "C97: the weighted sum", ["C78", "C97"],
   "dtimes (dtimes f (Gi a b c)) (Gmii a b c)))\n        (f_second e) (fplus (f_norm e) (fun a b c => dtimes f (Gmii a b c)))", "dtimes (dtimes f (dtimes f (Gi a b c))) (Gmii a b c)))\n        (f_second e) (fplus (f_norm e) (fun a b c => dtimes f (Gmii a b c)))")
mu("er02", EF, "fsafe", "weights below one are replaced too", "C97: weighted averages of small weights", ["C97"],
   "if dle n dzero then done else n.", "if dle n (ddiv done (dz 2)) then done else n.")
mu("er03", EF, "fhh_point", "the absolute value instead of the square", "C97: heightheight", ["C78", "C97"],
   "(fplus (f_first e) (fun a b c => dtimes (pow2 L", "(fplus (f_first e) (fun a b c => dtimes (Babs")
# ---------------------------------------------------------------- Python bindings of path, circles and centers
BG = "BindingsGeom.v"
mu("bg01", BG, "py_path", "actual by default", "C98: Bresenham by default", ["C98"],
   "(match mode with Some m => m | None => Bresenham end)", "(match mode with Some m => m | None => actual end)")
mu("bg02", BG, "py_path", "end points swapped", "C98: from the first to the second position", ["C98"],
   "path fuel (i_vals a) (i_vals b)", "path fuel (i_vals b) (i_vals a)")
mu("bg03", BG, "py_path", "the rank of the second position is not checked", "C98: wrong rank raises", ["C98"],
   "b <- with_rank 1 xb (to_int xb) ;;", "b <- to_int xb ;;")
mu("bg04", BG, "py_dummy_circles", "not periodic by default", "C98: defaults of C++", ["C98"],
   "(i_vals s) (match periodic with Some b => b | None => true end)", "(i_vals s) (match periodic with Some b => b | None => false end)")
mu("bg05", BG, "py_dummy_circles", "row and column swapped", "C98: rows are rows", ["C98"],
   "dummy_circles asrt shape (i_vals x) (i_vals y)", "dummy_circles asrt shape (i_vals y) (i_vals x)")
mu("bg06", BG, "py_dummy_circles", "the radii are not passed on", "C98: radii", ["C98"],
   "(i_vals y) (i_vals s)", "(i_vals y) (i_vals x)")
mu("bg07", BG, "matrix_rows", "columns instead of rows", "C98: one position per row", ["C98"],
   "let m := zn (a_shape a) 1 in", "let m := zn (a_shape a) 0 in")
mu("bg08", BG, "matrix_rows", "rows overlap", "C98: one position per row", ["C98"],
   "(skipn (Z.to_nat (i * m)) (reals a))", "(skipn (Z.to_nat i) (reals a))")
mu("bg09", BG, "py_center_of_mass", "weights are replaced by ones", "C98: weights are used", ["C98"],
   "w <- with_rank 1 weights (Ok (reals weights)) ;;", "w <- with_rank 1 weights (Ok (map (fun _ => 1%R) (reals weights))) ;;")
mu("bg10", BG, "py_center", "periodic is ignored", "C98: periodic reaches the function", ["C98"],
   "center s p (match periodic with Some b => b | None => true end)", "center s p true")
mu("bg11", BG, "py_labels_centers", "names of any rank", "C98: wrong rank raises", ["C98"],
   "Definition py_labels_centers (asrt : bool) (labels names : array) (periodic : option bool) : res (list (list num)) :=\n  l <- to_long labels ;; n <- with_rank 1 names (to_long names) ;;",
   "Definition py_labels_centers (asrt : bool) (labels names : array) (periodic : option bool) : res (list (list num)) :=\n  l <- to_long labels ;; n <- to_long names ;;")
mu("bg12", BG, "py_labels_centers_of_mass", "weights as integers", "C98: fractions as weights", ["C98"],
   "(a_shape weights) (reals weights) (i_vals n)", "(a_shape weights) (map (fun q => IZR (trunc q)) (a_vals weights)) (i_vals n)")
mu("bg13", BG, "py_labels_centers_of_mass", "periodic is negated", "C98: periodic reaches the function", ["C98"],
   "(reals weights) (i_vals n)\n    (match periodic with Some b => b | None => true end)", "(reals weights) (i_vals n)\n    (negb (match periodic with Some b => b | None => true end))")
mu("bg14", BG, "py_center", "the shape of any rank", "C98: wrong rank raises", ["C98"],
   "Definition py_center (shape positions : array) (periodic : option bool) : res (list num) :=\n  s <- with_rank 1 shape (Ok (reals shape)) ;;", "Definition py_center (shape positions : array) (periodic : option bool) : res (list num) :=\n  s <- Ok (reals shape) ;;")
# ---------------------------------------------------------------- symmetry of paths
mu("pa20", "Path.v", "bres_check", "halfway points are rounded towards the start", "C28/C101: ties", ["C28", "C101"],
   "if 0 <=? get d i then", "if 0 <? get d i then")
mu("pa21", "Path.v", "bres_axis", "negative differences are one longer", "C27/C101: mirrored paths", ["C27", "C101"],
   "a <- i32 (2 * Z.abs d) ;;", "a <- i32 (2 * Z.abs d + (if d <? 0 then 1 else 0)) ;;")
mu("pa22", "Path.v", "is_dominant", "the last axis is preferred only if strictly larger", "C101: interchanged axes", ["C27", "C101"],
   "else if is_dominant a X2 then Some X2\n", "else if is_dominant a X1 then Some X2\n")
mu("pa23", "Path.v", "cross_each", "the row is stored before the crossing", "C29: full ends in the target", ["C30", "C101"],
   "then cindex (done ++ cross d :: todo')", "then cindex (done ++ d :: todo')")
mu("pa24", "Path.v", "line_axis", "the first crossing of negative directions is at the pixel itself", "C56/C101: mirrored paths", ["C56", "C101"],
   "Ok (mkdimn p q p (inject_Z (Z.sgn d) * (1 # 2)) (inject_Z p))", "Ok (mkdimn p q p (if d <? 0 then 0%Q else inject_Z (Z.sgn d) * (1 # 2))%Q (inject_Z p))")
mu("pa25", "Path.v", "cross", "the next crossing is always in the positive direction", "C56/C101: mirrored paths", ["C56", "C101"],
   "(d_next d + inject_Z (sign d))", "(d_next d + 1)")
mu("pa26", "Path.v", "bresenham", "the second minor axis starts half a pixel later", "C28/C101: interchanged axes", ["C28", "C101"],
   "q (get a q - get a j / 2) in", "q (get a q - get a j) in")
mu("pa27", "Path.v", "line_loop", "actual: diagonal steps are split", "C56/C101: corners", ["C56", "C101"],
   "let rows := if full then cross_each tm [] l else [cindex l'] in", "let rows := cross_each tm [] l in")
# ---------------------------------------------------------------- laws of circles
mu("ci20", CI, "disc", "the axes are not treated alike", "C102: transposed circles", ["C50", "C102", "C103"],
   "(fst d ^ 2 + snd d ^ 2) <? r", "(fst d ^ 2 + 2 * snd d ^ 2) <? r")
mu("ci21", CI, "disc", "the left half is cut off", "C102: flipped circles", ["C50", "C102"],
   "(list_prod (zrange (- r) (r + 1)) (zrange (- r) (r + 1)))", "(list_prod (zrange (- r) (r + 1)) (zrange 0 (r + 1)))")
mu("ci22", CI, "disc", "rings instead of discs", "C102: larger circles cover more", ["C50", "C102", "C103"],
   "filter (fun d => Z.sqrt_up (fst d ^ 2 + snd d ^ 2) <? r)", "filter (fun d => Z.sqrt_up (fst d ^ 2 + snd d ^ 2) =? r - 1)")
mu("ci23", CI, "paint_periodic", "circles toggle pixels", "C102: order and repetition", ["C50", "C102"],
   "vset out (a mod n * m + b mod m) 1.", "vset out (a mod n * m + b mod m) (1 - zn out (a mod n * m + b mod m)).")
mu("ci24", CI, "paint_inside", "the first column is left out", "C102: fitting circles", ["C50", "C102"],
   "(a <? n) && (0 <=? b) && (b <? m)", "(a <? n) && (1 <=? b) && (b <? m)")
mu("ci25", CI, "paint_circle", "only the last of the circles that overlap is drawn (radius shrinks)", "C102: union", ["C50", "C102"],
   "(disc rad) out.", "(disc (rad - i)) out.")
# ---------------------------------------------------------------- circles in doubles
CF = "CirclesFloat.v"
mu("cf01", CF, "fsquares", "the square of the column is dropped", "C104: distances", ["C104"],
   "dplus (dtimes (dz a) (dz a)) (dtimes (dz b) (dz b)).", "dplus (dtimes (dz a) (dz a)) (dtimes (dz a) (dz b)).")
mu("cf02", CF, "dceil", "rounded down", "C104: distances are rounded up", ["C104"],
   "if s then - (Zpos m / 2 ^ (- e)) else - ((- Zpos m) / 2 ^ (- e))", "if s then - (Zpos m / 2 ^ (- e)) else Zpos m / 2 ^ (- e)")
mu("cf03", CF, "lit_twentieth", "single precision literal", "C104: the number of circles", ["C104"],
   "Definition lit_twentieth : double := ddiv done (dz 20).", "Definition lit_twentieth : double := ddiv (dz 13421773) (dz 268435456).")
mu("cf04", CF, "lit_pi", "22 / 7", "C104: the default radius", ["C104"],
   "binary_normalize 53 1024 precision exponent mode_NE 7074237752028440 (-51) false.", "ddiv (dz 22) (dz 7).")
mu("cf05", CF, "fgrid", "the spacing is rounded first", "C104: positions on the grid", ["C104"],
   "dint (ddiv (dtimes (dz i) (dz n)) (dz count)).", "dint (dtimes (dz i) (ddiv (dz n) (dz count))).")
mu("cf06", CF, "fpitch", "not halved", "C104: circles stay near the grid", ["C104"],
   "dint (ddiv (dtimes half (dz n)) (dz count)).", "dint (ddiv (dz n) (dz count)).")
mu("cf07", CF, "fscaled_radius", "three times the radius", "C104: at most twice the default radius", ["C104"],
   "dint (dtimes (dtimes (dz r) (dz 2)) u).", "dint (dtimes (dtimes (dz r) (dz 3)) u).")
mu("cf08", CF, "fdefault_radius", "the root is not taken", "C104: the default radius", ["C104"],
   "dint (root (ddiv", "dint ((fun x => x) (ddiv")
mu("cf09", CF, "fdisc", "distance at most the radius", "C104: same circles", ["C104"],
   "<? r)\n         (list_prod", "<=? r)\n         (list_prod")
mu("cf10", CF, "fdummy_circles_random", "row and column swapped", "C104: positions on the grid", ["C104"],
   "(map (fun kw => fgrid_row n m (fst kw) (snd kw)) (combine k ws))\n          (map (fun kw => fgrid_col n m (fst kw) (snd kw)) (combine k ws))",
   "(map (fun kw => fgrid_col n m (fst kw) (snd kw)) (combine k ws))\n          (map (fun kw => fgrid_row n m (fst kw) (snd kw)) (combine k ws))")
# ---------------------------------------------------------------- centers in doubles
CGF = "CenterFloat.v"
mu("cg01", CGF, "two_pi", "pi instead of two pi", "C105: circular mean", ["C105"],
   "dtimes (dz 2) lit_pi.", "dtimes (dz 1) lit_pi.")
mu("cg02", CGF, "fmean_of", "divided by one number more", "C105: mean", ["C105"],
   "ddiv (t_sum T x) (dz (lenZ x)).", "ddiv (t_sum T x) (dz (lenZ x + 1)).")
mu("cg03", CGF, "faverage_of", "divided by the number of weights", "C105: weighted mean", ["C105"],
   "(t_sum T (dmap2 dtimes x w)) (t_sum T w).", "(t_sum T (dmap2 dtimes x w)) (dz (lenZ w)).")
mu("cg04", CGF, "faverage_of", "weights are added, not multiplied", "C105: weighted mean", ["C105"],
   "(t_sum T (dmap2 dtimes x w)) (t_sum T w).", "(t_sum T (dmap2 dplus x w)) (t_sum T w).")
mu("cg05", CGF, "faxis_center", "periodic and not periodic swapped", "C105: periodic", ["C105"],
   "if negb periodic then avg x", "if periodic then avg x")
mu("cg06", CGF, "faxis_center", "sine and cosine swapped", "C105: circular mean", ["C105"],
   "let xi_bar := avg (map (t_cos T) theta) in", "let xi_bar := avg (map (t_sin T) theta) in")
mu("cg07", CGF, "faxis_center", "arguments of atan2 swapped", "C105: circular mean", ["C105"],
   "t_atan2 T (Bopp zeta_bar) (Bopp xi_bar)", "t_atan2 T (Bopp xi_bar) (Bopp zeta_bar)")
mu("cg08", CGF, "faxis_center", "signs are not changed before atan2", "C105: circular mean", ["C105"],
   "t_atan2 T (Bopp zeta_bar) (Bopp xi_bar)", "t_atan2 T zeta_bar xi_bar")
mu("cg09", CGF, "faxis_center", "pi is not added", "C105: circular mean; C106: in the box", ["C105", "C106"],
   "dplus (t_atan2 T (Bopp zeta_bar) (Bopp xi_bar)) lit_pi in", "dplus (t_atan2 T (Bopp zeta_bar) (Bopp xi_bar)) dzero in")
mu("cg10", CGF, "faxis_center", "not scaled to the box", "C105: circular mean", ["C105"],
   "ddiv (dtimes len theta_bar) two_pi.", "ddiv theta_bar two_pi.")
mu("cg11", CGF, "fall_axes", "always the first column", "C105: every axis", ["C105"],
   "(fcolumn k positions) :: fall_axes T periodic avg rest positions (S k)", "(fcolumn 0 positions) :: fall_axes T periodic avg rest positions (S k)")
mu("cg12", CGF, "fcenter", "ones for no positions", "C105: labels without pixels", ["C105"],
   "else if fno_positions shape positions then Ok (map (fun _ => dzero) shape)\n  else Ok (fall_axes T periodic (fmean_of T)",
   "else if fno_positions shape positions then Ok (map (fun _ => dz 1) shape)\n  else Ok (fall_axes T periodic (fmean_of T)")
mu("cg13", CGF, "fweights_at", "weights of the first pixels", "C105: weights of the pixels", ["C105"],
   "vget w (dot p (strides wshape))) pos.", "vget w (dot p (strides wshape) - 1)) pos.")
mu("cg14", CGF, "flabels_centers", "the first pixel is left out", "C105: pixels of the label", ["C105"],
   "let positions := fto_double (where_equal shape labels name) in\n          if fno_positions", "let positions := fto_double (tl (where_equal shape labels name)) in\n          if fno_positions")
mu("cg15", CGF, "flabels_centers_of_mass", "periodic is ignored", "C105: labels_centers_of_mass", ["C105"],
   "else fcenter_of_mass T (map dz shape) positions ws periodic) names.", "else fcenter_of_mass T (map dz shape) positions ws false) names.")
mu("cg16", CGF, "faxis_center", "the length of the box is squared", "C106: in the box", ["C105", "C106"],
   "ddiv (dtimes len theta_bar) two_pi.", "ddiv (dtimes (dtimes len len) theta_bar) two_pi.")

BC = "BindingsCall.v"
mu("bc01", BC, "receive", "unknown named arguments are ignored", "C107: unknown arguments raise", ["C107"],
   "| [], [] => match kw with [] => Some [] | _ => None end", "| [], [] => Some []")
mu("bc02", BC, "receive", "superfluous positional arguments are ignored", "C107: superfluous arguments raise", ["C107"],
   "| [], _ :: _ => None\n  | p :: s', x :: pos'", "| [], _ :: _ => Some []\n  | p :: s', x :: pos'")
mu("bc03", BC, "receive", "a named argument replaces the positional one", "C107: repeated arguments raise", ["C107"],
   "| p :: s', x :: pos' => option_map (cons x) (receive s' pos' kw)",
   "| p :: s', x :: pos' => option_map (cons (match by_name (fst p) kw with Some y => y | None => x end)) (receive s' pos' (filter (fun k => negb (String.eqb (fst k) (fst p))) kw))")
mu("bc04", BC, "function_overloads", "labels_centers_of_mass: names before weights", "C107: by position", ["C107"],
   '[("labels", None); ("weights", None); ("names", None); ("periodic", Some (PFlag true))]', '[("labels", None); ("names", None); ("weights", None); ("periodic", Some (PFlag true))]')
mu("bc05", BC, "function_overloads", "clusters: periodic is false by default", "C107: defaults", ["C107"],
   '[ ([("f", None); ("periodic", Some (PFlag true))],', '[ ([("f", None); ("periodic", Some (PFlag false))],')
mu("bc06", BC, "function_overloads", "path: mode is actual by default", "C107: defaults", ["C107"],
   '("mode", Some (PMode Bresenham))],', '("mode", Some (PMode actual))],')
mu("bc07", BC, "function_overloads", "dummy_circles: row and col exchanged", "C107: by name", ["C107"],
   '("row", None); ("col", None)', '("col", None); ("row", None)')
mu("bc08", BC, "receive", "the default wins over the named argument", "C107: by name", ["C107"],
   "match match by_name (fst p) kw with Some x => Some x | None => snd p end with", "match match snd p with Some x => Some x | None => by_name (fst p) kw end with")
mu("bc09", BC, "function_overloads", "path: an argument is exchanged for another", "C107: by position", ["C107"],
   "as_result RIndices (py_path fuel a b (Some m))", "as_result RIndices (py_path fuel b a (Some m))")
mu("bc10", BC, "function_overloads", "path: mode is ignored", "C107: mode", ["C107"],
   "as_result RIndices (py_path fuel a b (Some m))", "as_result RIndices (py_path fuel a b None)")

EC = "EnsembleCall.v"
mu("ec01", EC, "methods", "S2: fmask and gmask exchanged", "C108: masks by name", ["C108"],
   'mkeo [("f", None); ("g", None); ("fmask", None); ("gmask", None)] [TyDouble; TyDouble; TyInt; TyInt]', 'mkeo [("f", None); ("g", None); ("gmask", None); ("fmask", None)] [TyDouble; TyDouble; TyInt; TyInt]')
mu("ec02", EC, "methods", "W2: f before w", "C108: by name", ["C108"],
   'mkeo [("w", None); ("f", None); ("fmask", None)]', 'mkeo [("f", None); ("w", None); ("fmask", None)]')
mu("ec03", EC, "methods", "W2c: centers before clusters", "C108: by name", ["C108"],
   'mkeo [("clusters", None); ("centers", None); ("f", None); ("mode", Some (PMode Bresenham))] [TyInt; TyInt; TyDouble; TyMode]', 'mkeo [("centers", None); ("clusters", None); ("f", None); ("mode", Some (PMode Bresenham))] [TyInt; TyInt; TyDouble; TyMode]')
mu("ec04", EC, "methods", "L: mode is full by default", "C108: defaults", ["C108"],
   'mkeo [("f", None); ("mode", Some (PMode Bresenham))] [TyInt; TyMode]', 'mkeo [("f", None); ("mode", Some (PMode full))] [TyInt; TyMode]')
mu("ec05", EC, "wrappers", "C2 with masks: periodic is false by default", "C108: defaults", ["C108"],
   '("gmask", None); ("periodic", Some (PFlag true))]\n          [TyRoi; TyInt; TyInt; TyInt; TyInt; TyFlag]', '("gmask", None); ("periodic", Some (PFlag false))]\n          [TyRoi; TyInt; TyInt; TyInt; TyInt; TyFlag]')
mu("ec06", EC, "wrappers", "L: mode before periodic", "C108: by position", ["C108"],
   '("periodic", Some (PFlag true)); ("mode", Some (PMode Bresenham))] [TyRoi; TyInt; TyFlag; TyMode]\n          (fun l => match l with [LRoi r; LArg (AInt f); LFlag p; LMode mode]',
   '("mode", Some (PMode Bresenham)); ("periodic", Some (PFlag true))] [TyRoi; TyInt; TyMode; TyFlag]\n          (fun l => match l with [LRoi r; LArg (AInt f); LMode mode; LFlag p]')
mu("ec07", EC, "choose", "a single pass, with conversion", "C108: images as given (C77)", ["C108"],
   "match first_of (attempt false pos kw) os with", "match first_of (attempt true pos kw) os with")
mu("ec08", EC, "accept", "a mask may be an array of one element as mode", "C108: masks as given", ["C108"],
   "  | TyMode, PMode m => Some (Ok (LMode m))", "  | TyMode, PMode m => Some (Ok (LMode m))\n  | TyMode, PArray a => if convert then Some (Ok (LMode Bresenham)) else None")
mu("ec09", EC, "wrappers", "W2 with mask: the mask is dropped", "C108: masks as given", ["C108"],
   "Ok (r, p, CallW2 w f (Some fm))", "Ok (r, p, CallW2 w f None)")
mu("ec10", EC, "wrappers", "W2c: periodic is ignored", "C108: periodic as given", ["C108"],
   "Ok (r, p, CallW2c c ce f (Some fm) mode)", "Ok (r, true, CallW2c c ce f (Some fm) mode)")
mu("ec11", EC, "methods", "mean with mask: roles exchanged by name", "C108: by name", ["C108"],
   'mkeo [("f", None); ("fmask", None)] [TyDouble; TyInt]\n          (fun l => match l with [LArg (ADouble f); LArg (AInt fm)] => Ok (MeanMasked f fm)', 'mkeo [("fmask", None); ("f", None)] [TyDouble; TyInt]\n          (fun l => match l with [LArg (ADouble f); LArg (AInt fm)] => Ok (MeanMasked f fm)')
mu("ec12", EC, "accept", "every array may be taken for a flag", "C108: masks as given", ["C108"],
   "match a_vals a with [q] => Some", "match a_vals a with q :: _ => Some")

mu("dr01", "Dilate.v", "dil_point", "the first pixel wins", "C109: the last pixel wins", ["C109"],
   "then if (at3 0 F a b c =? 0) && (", "then if (at3 0 G a b c =? 0) && (at3 0 F a b c =? 0) && (")
mu("dr02", "Array3.v", "loop3", "the columns are visited before the rows", "C109: the last pixel in row-major order wins", ["C109"],
   """flat_map (fun h => flat_map (fun i => map (fun j => (h, i, j)) (zrange j0 j1))
                              (zrange i0 i1)) (zrange h0 h1).""",
   """flat_map (fun h => flat_map (fun j => map (fun i => (h, i, j)) (zrange i0 i1))
                              (zrange j0 j1)) (zrange h0 h1).""")
mu("dr03", "Dilate.v", "dil_iter", "the pixels are visited backwards", "C109: the last pixel in row-major order wins", ["C109"],
   "(loop3 p0 (d0 F - q0) p1 (d1 F - q1) p2 (d2 F - q2)) F ;;", "(rev (loop3 p0 (d0 F - q0) p1 (d1 F - q1) p2 (d2 F - q2))) F ;;")
mu("dr04", "Dilate.v", "dil_point", "a larger label wins", "C109: whatever its label", ["C109"],
   "then l else at3 0 G a b c\n           else", "then Z.max l (at3 0 G a b c) else at3 0 G a b c\n           else")
mu("dr05", "Dilate.v", "dilate", "the passes are counted backwards", "C109: labels grow in the first passes", ["C109"],
   "F <- foldM (dil_iter per iterations K P) (zrange 0 n) F ;;", "F <- foldM (dil_iter per iterations K P) (rev (zrange 0 n)) F ;;")

mu("lk01", "Ensemble.v", "L_walk", "the walk goes on after the phase ended", "C110: stretches inside a cluster", ["C110"],
   "if v =? 0 then Ok first\n", "if v =? 0 then L_walk P F x rows' first\n")
mu("lk02", "Path.v", "path", "full is actual", "C110: full paths step to face neighbours", ["C110"],
   "  | full => line true fuel x0 x1", "  | full => line false fuel x0 x1")
mu("lk03", "Ensemble.v", "C2_point", "only the first label counts", "C110: every cluster counts in C2", ["C110"],
   "plus (e_first e) (fun a b c => if f =? Gi a b c then", "plus (e_first e) (fun a b c => if (f =? Gi a b c) && (f =? 1) then")
mu("lk04", "Ensemble.v", "L_norm", "the norm counts one per path", "C110: L is a fraction", ["C110"],
   "incr norm (p0 + dh) (p1 + di) (p2 + dj) (zq size)", "incr norm (p0 + dh) (p1 + di) (p2 + dj) 1%Qc")

SV = "StructureVar.v"
mu("sv01", SV, "vaccumulate", "second is overwritten", "C111: sum of squares", ["C111"], "Some (y + x i * x i)%R", "Some (x i * x i)%R")
mu("sv02", SV, "vaccumulate", "the square of the sum", "C111: sum of squares", ["C111"], "Some (y + x i * x i)%R", "Some ((y + x i) * (y + x i))%R")
mu("sv03", SV, "variance", "biased variance", "C111: unbiased", ["C111"], "* (IZR n / (IZR n - 1)))%R", ")%R")
mu("sv04", SV, "variance", "the mean is not squared", "C111: variance", ["C111"], "y / IZR n - m * m", "y / IZR n - m")
mu("sv05", SV, "second0", "the Nyquist entry of second is a number", "C111: NaN at Nyquist", ["C111"], "then if nth 0 i 0 =? n / 2 then None else Some 0%R\n      else Some 0%R\n  | [n; m]", "then Some 0%R\n      else Some 0%R\n  | [n; m]")
mu("sv06", SV, "second0", "only the Nyquist row is NaN", "C111: NaN at Nyquist", ["C111"], "(nth 0 i 0 =? n / 2) || (nth 1 i 0 =? m / 2)", "(nth 0 i 0 =? n / 2)")
mu("sv07", SV, "vallocate", "second is allocated only without the flag", "C111: variance is computed if asked for", ["C111"], "(if cv then Some", "(if negb cv then Some")
mu("sv08", SV, "vadd_sample", "two dimensions: axes exchanged", "C111: entries", ["C111"], "r <- sample2 Float n m u junk ;;\n      vaccumulate cv st [n; m] (fun i => mat_at r (nth 0 i 0) (nth 1 i 0))", "r <- sample2 Float n m u junk ;;\n      vaccumulate cv st [n; m] (fun i => mat_at r (nth 1 i 0) (nth 0 i 0))")
mu("sv09", "Structure.v", "accumulate", "norm is not counted", "C111: number of samples", ["C111"], "(st_norm st + 1))", "(st_norm st))")

SX = "StructureExn.v"
mu("sx01", SX, "accumulate_x", "a sample of the wrong shape resets the object", "C112: refused samples leave no trace", ["C112"], "       | _ => (Some s, true)\n       end.", "       | _ => (None, true)\n       end.")
mu("sx02", SX, "accumulate_x", "a sample of the wrong shape starts afresh", "C112: refused samples leave no trace", ["C112"], "       | _ => (Some s, true)\n       end.", "       | _ => (Some (fst (allocate_x shape)), true)\n       end.")
mu("sx03", SX, "offer", "a sample that cannot be transformed clears the object", "C112: refused samples leave no trace", ["C112"], "match sample1 Float n u (junk 0) with\n      | Ok r => accumulate_x st [n] (fun i => vat r (nth 0 i 0))\n      | _ => (st, true)", "match sample1 Float n u (junk 0) with\n      | Ok r => accumulate_x st [n] (fun i => vat r (nth 0 i 0))\n      | _ => (None, true)")
mu("sx04", SX, "offer", "integer samples are not counted", "C112: outcome", ["C112"], "match sample1 Integer n (fun j => IZR (u j)) (junk 0) with\n      | Ok r => accumulate_x st [n] (fun i => vat r (nth 0 i 0))", "match sample1 Integer n (fun j => IZR (u j)) (junk 0) with\n      | Ok r => (st, false)")
mu("sx05", SX, "offers", "only the first sample is offered", "C112: every sample of the right shape counts", ["C112"], "fold_left (fun st d => fst (offer st (fst d) (snd d))) l st.", "fold_left (fun st d => fst (offer st (fst d) (snd d))) (firstn 1 l) st.")

mu("cs01", "Labels.v", "labels_sizes_impl", "first occurrence counts 0", "C113: squares of the sizes", ["C113"],
   "| None => memplace m l 1", "| None => memplace m l 0")
mu("cs02", "Ensemble.v", "C2_point", "background counts as a cluster", "C113: only clusters count", ["C113"],
   "(if f =? 0 then e_first e\n", "(if f =? -1 then e_first e\n")
mu("cs03", "Ensemble.v", "C2_point", "any two clusters are equal", "C113: squares of the sizes", ["C113"],
   "if f =? Gi a b c then Gmii a b c else 0%Qc", "if negb (Gi a b c =? 0) then Gmii a b c else 0%Qc")

mu("wl01", "Ensemble.v", "W2c_walk", "the mask is ignored", "C114: masked pixels have no influence", ["C114"],
   "                   if m =? 0 then\n                     to <- vget all q", "                   if (m =? 0) || true then\n                     to <- vget all q")
mu("wl02", "Ensemble.v", "W2c_walk", "norm counts twice", "C114: an average", ["C114"],
   "n <- incr (snd fn) (p0 + th) (p1 + ti) (p1 + tj) 1%Qc", "n <- incr (snd fn) (p0 + th) (p1 + ti) (p1 + tj) (1 + 1)%Qc")
mu("wl03", "Ensemble.v", "W2c_walk", "the square of the value is counted", "C114: linear", ["C114"],
   "f <- incr (fst fn) (p0 + th) (p1 + ti) (p1 + tj) v ;;", "f <- incr (fst fn) (p0 + th) (p1 + ti) (p1 + tj) (v * v)%Qc ;;")
mu("wl04", "Ensemble.v", "W2c", "image padded with zeros, always", "C114: between the extremes of a periodic image", ["C114"],
   "  F <- pad_mode (e_per e) 0%Qc f3 P ;;\n  Fm <- pad_mode (e_per e) 0 fm3 P ;;", "  F <- pad_mode false 0%Qc f3 P ;;\n  Fm <- pad_mode (e_per e) 0 fm3 P ;;")
mu("wl05", "Ensemble.v", "W2c", "mask padded with ones if not periodic (the other statistics)", "C114: surroundings count (disagreement)", ["C114"],
   "  Fm <- pad_mode (e_per e) 0 fm3 P ;;", "  Fm <- pad_mode (e_per e) 1 fm3 P ;;")

mu("lm01", "Ensemble.v", "stamps", "end points only on the first half", "C115: flipped", ["C115"],
   "              (loop3 0 n0 0 n1 0 n2)).\n\n(** [m(a, b, c) += v]", "              (loop3 0 (n0 / 2 + 1) 0 n1 0 n2)).\n\n(** [m(a, b, c) += v]")
mu("lm02", "Ensemble.v", "L", "never periodic", "C115: rolled", ["C115"],
   "  F <- pad_mode (e_per e) 0 f3 P ;;\n  foldM (L_stamp", "  F <- pad_mode false 0 f3 P ;;\n  foldM (L_stamp")
mu("lm03", "Ensemble.v", "L_walk", "steps are written mirrored along the second axis", "C115: flipped", ["C115"],
   "first' <- incr first (p0 + dh) (p1 + di) (p2 + dj) 1%Qc", "first' <- incr first (p0 + dh) (p1 + Z.abs di) (p2 + dj) 1%Qc")
mu("lm04", "Ensemble.v", "W2c", "the mask is not periodic", "C115: rolled", ["C115"],
   "  Fm <- pad_mode (e_per e) 0 fm3 P ;;", "  Fm <- pad_mode false 0 fm3 P ;;")
mu("lm05", "Ensemble.v", "interior", "last element counts as interior", "C115: flipped", ["C115"],
   "(1 <=? k) && (k <? n - 1) else true.", "(1 <=? k) && (k <? n) else true.")

mu("rf01", "Refused.v", "try_S2", "locks before the assertion on the lock", "C116", ["C116"],
   "  _ <-- check asrt (fun e => unlocked e S_S2) ;;;\n  _ <-- lock S_S2 ;;;", "  _ <-- lock S_S2 ;;;\n  _ <-- check asrt (fun e => unlocked e S_S2) ;;;")
mu("rf02", "Refused.v", "try_heightheight", "locks before the assertion on the mask", "C116", ["C116"],
   "  _ <-- check asrt (fun _ => binary fmask) ;;;\n  _ <-- check asrt (fun e => unlocked e S_heightheight) ;;;\n  _ <-- lock S_heightheight ;;;",
   "  _ <-- check asrt (fun e => unlocked e S_heightheight) ;;;\n  _ <-- lock S_heightheight ;;;\n  _ <-- check asrt (fun _ => binary fmask) ;;;")
mu("rf03", "Refused.v", "try_add_points", "points are checked one by one while they are added", "C116", ["C116"],
   "  _ <-- check asrt (fun s => legal_points s idx) ;;;\n  _ <-- for_ (fun i =>\n    s <-- this_ ;;;",
   "  _ <-- for_ (fun i =>\n    _ <-- check asrt (fun s => legal_points s [i]) ;;;\n    s <-- this_ ;;;")
mu("rf04", "Refused.v", "try_add_image", "the shape is checked at the end", "C116", ["C116"],
   "  _ <-- check asrt (fun _ => eqbl ishape (g_shape g)) ;;;\n  _ <-- for_ (fun idx =>\n    v <-- expr (vget img idx) ;;;\n    if v =? 0 then skip\n    else\n      s <-- this_ ;;;\n      l <-- expr (vget (c_label s) idx) ;;;\n      if negb (l =? 0) then skip else code (fun s => label_impl g s idx)) (zseq 0 (length img)) ;;;",
   "  _ <-- for_ (fun idx =>\n    v <-- expr (vget img idx) ;;;\n    if v =? 0 then skip\n    else\n      s <-- this_ ;;;\n      l <-- expr (vget (c_label s) idx) ;;;\n      if negb (l =? 0) then skip else code (fun s => label_impl g s idx)) (zseq 0 (length img)) ;;;\n  _ <-- check asrt (fun _ => eqbl ishape (g_shape g)) ;;;")
mu("rf05", "Refused.v", "try_L", "locks first", "C116", ["C116"],
   "  _ <-- check asrt (fun e => Nat.eqb (length (i_shape f)) (length (e_roi e))) ;;;\n  _ <-- check asrt (fun e => unlocked e S_L) ;;;\n  _ <-- lock S_L ;;;",
   "  _ <-- check asrt (fun e => unlocked e S_L) ;;;\n  _ <-- lock S_L ;;;\n  _ <-- check asrt (fun e => Nat.eqb (length (i_shape f)) (length (e_roi e))) ;;;")
mu("rf06", "Refused.v", "try_mean_masked", "the number of pixels is added before the sums", "C116: sums", ["C116"],
   "  _ <-- expr (where_shape f fmask) ;;;\n  _ <-- add_first0", "  _ <-- add_norm0 0%Qc ;;;\n  _ <-- add_norm0 (zq 1) ;;;\n  _ <-- expr (where_shape f fmask) ;;;\n  _ <-- add_first0")

mu("ro01", "Ensemble.v", "S2_point", "only the centre of the window is normalised by the mask", "C117, C34", ["C117"],
   "          (e_second e) (plus (e_norm e) Gmii)).\n\nDefinition S2 ", "          (e_second e) (plus (e_norm e) (fun a b c => (Gmii a b c * zq (d0 (e_norm e)))%Qc))).\n\nDefinition S2 ")
mu("ro02", "Ensemble.v", "L_walk", "the walk goes on after the phase ended", "C118: stretches without interruption", ["C118"],
   "if v =? 0 then Ok first\n", "if v =? 0 then L_walk P F x rows' first\n")
mu("ro03", "Ensemble.v", "L_norm", "counts one per path instead of one per pixel of the image", "C118: fraction of the pixels", ["C118"],
   "incr norm (p0 + dh) (p1 + di) (p2 + dj) (zq size)", "incr norm (p0 + dh) (p1 + di) (p2 + dj) 1%Qc")
mu("ro04", "Ensemble.v", "L_stamp", "the first pixel of the path is skipped", "C118: both ends included", ["C118"],
   "a <- foldM (fun first x => L_walk P F x rows first) (positions P F) (e_first e) ;;\n  c <- foldM (L_norm P size) rows (e_norm e) ;;", "a <- foldM (fun first x => L_walk P F x (tl rows) first) (positions P F) (e_first e) ;;\n  c <- foldM (L_norm P size) rows (e_norm e) ;;")

mu("th01", "Cluster.v", "get_compare", "the branch for one row wraps at the wrong length", "C119, C10: one row", ["C119"],
   "if g_per g then Ok (s64 (wrap_unsigned n1 idx d1))", "if g_per g then Ok (s64 (wrap_unsigned n0 idx d1))")
mu("th02", "Cluster.v", "get_compare", "the branch for one column uses the other component", "C119, C10: one column", ["C119"],
   "if g_per g then Ok (s64 (wrap_unsigned n0 idx d0))", "if g_per g then Ok (s64 (wrap_unsigned n0 idx d1))")
mu("th03", "Cluster.v", "default_dx", "in three dimensions the last axis has no neighbours", "C119, C01: volumes", ["C119"],
   "[0; 0; -1]; [0; 0; 1]; [0; 1; 0]; [1; 0; 0]]", "[0; 1; 0]; [1; 0; 0]]")
mu("th04", "Array3.v", "shape3", "two-dimensional images get the new axis in the middle", "C119, C23: placement", ["C119"],
   "  | [n; m] => Ok (n, m, 1)\n", "  | [n; m] => Ok (n, 1, m)\n")

mu("tl01", "Ensemble.v", "heightheight", "padded with zeros also if periodic", "C120: repeated periodic images", ["C120"],
   "  F <- pad_mode (e_per e) 0%Qc f3 P ;;\n  foldM (hh_point", "  F <- pad_mode false 0%Qc f3 P ;;\n  foldM (hh_point")
mu("tl02", "Ensemble.v", "C2", "the second image is padded with zeros also if periodic", "C120: repeated periodic images", ["C120"],
   "  G <- pad_mode (e_per e) 0 g3 P ;;\n", "  G <- pad_mode false 0 g3 P ;;\n")
mu("tl03", "Ensemble.v", "L_norm", "one pixel too few", "C120: the normalisation is multiplied by the number of copies", ["C120"],
   "incr norm (p0 + dh) (p1 + di) (p2 + dj) (zq size)", "incr norm (p0 + dh) (p1 + di) (p2 + dj) (zq (size - 1))")

mu("pd01", "Ensemble.v", "pad_mask", "padding is not masked", "C121: masked margins do not matter", ["C121"],
   "pad_constant (if per then 0 else 1) m P.", "pad_constant 0 m P.")
mu("pd02", "Dilate.v", "dilate", "the surroundings are foreground", "C121: empty margins do not matter", ["C121"],
   "Ok (pad_constant 0 f3 P)) ;;", "Ok (pad_constant 1 f3 P)) ;;")
mu("pd03", "Cluster.v", "get_compare", "one dimension: the last pixel is outside", "C121: same labels", ["C121"],
   "if (c <? 0) || (n <=? c) then Ok (-1) else Ok (s64 (idx + d0))", "if (c <? 0) || (n - 1 <=? c) then Ok (-1) else Ok (s64 (idx + d0))")
mu("pd04", "Dilate.v", "dil_iter", "the last row is not dilated", "C121: same foreground", ["C121"],
   "(loop3 p0 (d0 F - q0) p1 (d1 F - q1) p2 (d2 F - q2)) F ;;", "(loop3 p0 (d0 F - q0 - 1) p1 (d1 F - q1) p2 (d2 F - q2)) F ;;")

mu("tm01", "Dilate.v", "dilate", "periodic images are padded with zeros", "C122: repeated dilation", ["C122"],
   "F <- (if per then pad_periodic 0 f3 P else", "F <- (if per then Ok (pad_constant 0 f3 P) else")
mu("tm02", "Cluster.v", "get_compare", "in one dimension the periodic wrap is one too long", "C122: clusters of repeated images", ["C122"],
   "else if g_per g then Ok (s64 (wrap_unsigned n idx d0))", "else if g_per g then Ok (s64 (wrap_unsigned n idx (d0 - 1)))")

mu("pc01", "Dilate.v", "dil_point", "labels are written over one another", "C123: labels stay in one piece", ["C123"],
   "then if (at3 0 F a b c =? 0) && (at3 0 K (a - (h - p0)) (b - (i - p1)) (c - (j - p2)) =? 1)", "then if (at3 0 K (a - (h - p0)) (b - (i - p1)) (c - (j - p2)) =? 1)")
mu("pc02", "Dilate.v", "dil_point", "the label is the sum of what it was and is", "C123: a new pixel has the label of its source", ["C123"],
   "then l else at3 0 G a b c", "then l + at3 0 G a b c else at3 0 G a b c")

mu("ty01", "LabelsTyped.v", "labels_sizes_impl_t", "the sizes of new labels start at zero", "C124: exact sizes", ["C124"],
   "| None => Ok (memplace m l 1)", "| None => Ok (memplace m l 0)")
mu("ty02", "LabelsTyped.v", "conv", "conversion saturates", "C124: sizes modulo", ["C124"],
   "(v - tmin t) mod 2 ^ bits t + tmin t", "Z.max (tmin t) (Z.min (tmax t) v)")
mu("ty03", "LabelsTyped.v", "labels_rename_t", "the result is not converted", "C124: rename", ["C124"],
   "Ok (m', ret ++ [conv L v])", "Ok (m', ret ++ [conv L (v + 1)])")
mu("ty04", "LabelsTyped.v", "labels_prune_t", "numbers start at zero", "C124: prune", ["C124"],
   "(fst r, conv T (snd r))", "(fst r, conv T (snd r - 1))")
mu("ty05", "LabelsTyped.v", "labels_reorder_t", "one label too few", "C124: reorder", ["C124"],
   "n <- plus_one A maxlab ;;", "n <- Ok maxlab ;;")
mu("ty06", "LabelsTyped.v", "labels_sizes_names_t", "names are counted from zero", "C124: sizes of names", ["C124"],
   "mindex m (conv T n)", "mindex m (conv T (n - 1))")
mu("ty07", "LabelsTyped.v", "plus_one", "no promotion", "C124: narrow types wrap", ["C124"],
   "if fitsb (promoted t) (v + 1) then Ok (v + 1)\n  else if signed (promoted t) then UB else", "if fitsb t (v + 1) then Ok (v + 1)\n  else if signed t then UB else")

mu("cm01", "Center.v", "all_axes", "every axis has the length of the first", "C125: axes are independent", ["C125"],
   ":: all_axes periodic avg minus rest positions (S k)", ":: all_axes periodic avg minus (map (fun _ => len) rest) positions (S k)")
mu("cm02", "Center.v", "axis_center", "the result is not scaled with the box", "C125: units of length", ["C125"],
   "Num (len * theta_bar / (2 * PI))", "Num (theta_bar / (2 * PI))")
mu("cm03", "Center.v", "average_of", "the first weight counts twice in the total", "C125: unions", ["C125"],
   "quotient (rsum (rmap2 Rmult x w)) (rsum w).", "quotient (rsum (rmap2 Rmult x w)) (rsum w + hd 0 w).")

mu("ms01", "Misc.v", "registered", "a class of rank zero is registered too", "C63: the classes that there are", ["C63"],
   "map (fun d => (class_name d false, (d, false))) (zrange 1 4).", "map (fun d => (class_name d false, (d, false))) (zrange 0 4).")
mu("ms02", "Misc.v", "sizes_load", "negative sizes are accepted", "C63: a negative size raises", ["C63"],
   "(0 <=? n) && (n <? 2 ^ 64)", "(n <? 2 ^ 64)")
mu("ms03", "Misc.v", "construct", "the rank of the shape is not checked", "C63: another rank raises", ["C63"],
   "if (lenZ shape =? fst cls) && sizes_load shape then", "if sizes_load shape then")

mu("ia01", "IntArith.v", "ibres_loop", "the decision variable is doubled", "C126: no overflow of d", ["C126"],
   "dp <- i32 (get d' (fst (others j)) + get a (fst (others j))) ;;", "dp <- i32 (get d' (fst (others j)) + 2 * get a (fst (others j))) ;;")
mu("ia02", "IntArith.v", "ibres_loop", "the counter is not checked", "C126: a loop that does not end overflows", ["C126"],
   "nnz' <- i32 (nnz + 1) ;;\n      b <-", "nnz' <- Ok (nnz + 1) ;;\n      b <-")
mu("ia03", "IntArith.v", "icross_each", "the counter starts from zero at each crossing", "C126: number of pixels is an int", ["C126"],
   "nnz' <- i32 (nnz + 1) ;;\n        r <-", "nnz' <- i32 1 ;;\n        r <-")
mu("ia04", "IntArith.v", "icross", "pixels are not checked", "C126: coordinates are ints", ["C126"],
   "_ <- i32 (g_c d + g_isign d) ;; Ok (fcross d)", "Ok (fcross d)")
mu("ia05", "IntArith.v", "irange", "the box ends one short", "C126: circles are exact", ["C126"],
   "if lo <=? r then hi <- i32 (r + 1) ;; Ok (zrange lo hi)", "if lo <=? r then hi <- i32 (r + 1) ;; Ok (zrange (lo + 1) (hi - 1))")
mu("ia06", "IntArith.v", "ipaint_inside", "the coordinate is clipped before the addition", "C126: UB outside int", ["C126"],
   "a <- i32 (x + di) ;; b <- i32 (y + dj) ;;\n  if", "a <- Ok (x + di) ;; b <- i32 (y + dj) ;;\n  if")

mu("cn01", "ClustersInt.v", "clusters_int", "the labels are converted to short", "C127: labels without loss", ["C127"],
   "conv I32", "conv I16")
mu("cn02", "ClustersInt.v", "clusters_int", "the labels are not converted", "C127: labels modulo 2^32", ["C127"],
   "Ok (map (conv I32) lab)", "Ok lab")
mu("sp01", ST, "sample1", "the lower half is copied without flipping", "C128: opposite frequencies have the same value", ["C128"], "ret <- vassign ret s n (vflip (vslice 1 e ret)) ;;", "ret <- vassign ret s n (vslice 1 e ret) ;;")
mu("sp02", ST, "sample1", "absolute value of the real part instead of the power", "C128: scaling by c multiplies by c^2", ["C128"], "vput ret 0 (cast dt (fst (cmul (vat hat 0) (vat hat 0))))", "vput ret 0 (cast dt (Rabs (fst (vat hat 0))))")
mu("sp03", ST, "fft2", "the frequencies of the axes are swapped", "C128: transposing and offsets in two dimensions", ["C128"], "(cexpm (2 * PI * (IZR (a * k) / IZR n + IZR (b * l) / IZR m)))) m) n.", "(cexpm (2 * PI * (IZR (a * l) / IZR n + IZR (b * k) / IZR m)))) m) n.")
mu("sp04", ST, "sample2", "the block is flipped along the rows only", "C128: mirrored samples in two dimensions", ["C128"], "M <- mmul (mslice 1 er 1 ec hat) (mflip (mslice sr n sc m hat)) ;;", "M <- mmul (mslice 1 er 1 ec hat) (mflip0 (mslice sr n sc m hat)) ;;")

mu("dw01", "Dilate.v", "dil_point", "labels from 5 on do not grow", "C129: dilation of a union, of flipped images", ["C129"], "if n <=? iter then Ok G", "if (n <=? iter) || (5 <=? l) then Ok G")
mu("dw02", "Dilate.v", "dil_iter", "the last column is not visited", "C129: flipped and transposed images", ["C129"], "p2 (d2 F - q2)) F ;;", "p2 (d2 F - q2 - 1)) F ;;")
mu("dw03", "Dilate.v", "dil_point", "the kernel is read transposed", "C129: transposed images", ["C129"], "at3 0 K (a - (h - p0)) (b - (i - p1)) (c - (j - p2))", "at3 0 K (a - (h - p0)) (c - (j - p2)) (b - (i - p1))")

SFL = "StructureFloat.v"
mu("sf01", SFL, "fsample1", "the lower half is copied without flipping", "C130: error, symmetry", ["C130"], "ret <- vassign ret s n (vflip (vslice 1 e ret)) ;;", "ret <- vassign ret s n (vslice 1 e ret) ;;")
mu("sf02", SFL, "plain_product", "product with the conjugate", "C130: error", ["C130"], "dminus (dtimes (fst x) (fst y)) (dtimes (snd x) (snd y))", "dplus (dtimes (fst x) (fst y)) (dtimes (snd x) (snd y))")
mu("sf03", SFL, "fsample2", "divided by the number of rows only", "C130: error in two dimensions", ["C130"], "ddiv (mat_at ret i j) (dz (n * m))", "ddiv (mat_at ret i j) (dz n)")
mu("sf04", SFL, "fallocate", "the Nyquist entry starts at zero", "C130: NaN", ["C130"], "(fun i => if (n mod 2 =? 0) && (nth 0 i 0 =? n / 2) then B754_nan else dzero) 0)", "(fun i => dzero) 0)")
mu("sf05", SFL, "fcast", "integers are stored as they are", "C130: truncation", ["C130"], "| Integer => dz (Btrunc x)", "| Integer => x")
mu("sf06", SFL, "faccumulate", "the last sample replaces the sum", "C130: error of the average", ["C130"], "(fun i => dplus (fst_first st i) (x i))", "(fun i => x i)")
mu("sf07", SFL, "fused_right", "the sign of the product is lost", "C130: error", ["C130"], "dfma (Bopp (snd x)) (snd y)", "dfma (snd x) (snd y)")

CO = "Collapse.v"
mu("co01", CO, "names_of", "the background is not left out", "C131: centers of the named labels only", ["C131"], "tl (unique labels)", "unique labels")
mu("co02", CO, "clip", "clipped to the length of the axis", "C131: the centers can be made", ["C131"], "Z.min (Z.max z 0) (n - 1)", "Z.min (Z.max z 0) n")
mu("co03", CO, "rint", "truncated instead of rounded", "C131: closest pixel", ["C131"], "Ok (ZnearestE c)", "Ok (Zfloor c)")
mu("co04", CO, "clip", "wrapped instead of clipped", "C131: closest pixel", ["C131"], "Z.min (Z.max z 0) (n - 1)", "z mod n")
mu("co05", CO, "assign", "the first label wins", "C131: highest label", ["C131"], "foldM (fun c iv => vset c (fst iv) (snd iv)) (combine index names) centers", "foldM (fun c iv => vset c (fst iv) (snd iv)) (rev (combine index names)) centers")
mu("co06", CO, "collapse", "periodic is ignored", "C131: periodic centers", ["C131"], "labels_centers asrt shape labels names periodic", "labels_centers asrt shape labels names false")
mu("co07", "Ensemble.v", "W2c_point", "centers outside their cluster count too", "C131: labels that count", ["C131"], "if negb (c =? label) then Ok fn\n    else W2c_walk", "if false then Ok fn\n    else W2c_walk")

EN = "Ensemble.v"
mu("sa01", EN, "S2", "the shape of the second mask is not checked", "C132: refused or inside", ["C132"], "  _ <- assertb asrt (shape_eqb (i_shape f) (i_shape gmask)) ;;\n  _ <- assertb asrt (Nat.eqb (length (i_shape f)) (length (e_roi e))) ;;\n  _ <- assertb asrt (binary fmask) ;;\n  _ <- assertb asrt (binary gmask) ;;\n  _ <- assertb asrt (unlocked e S_S2) ;;", "  _ <- assertb asrt (Nat.eqb (length (i_shape f)) (length (e_roi e))) ;;\n  _ <- assertb asrt (binary fmask) ;;\n  _ <- assertb asrt (binary gmask) ;;\n  _ <- assertb asrt (unlocked e S_S2) ;;")
mu("sa02", EN, "W2c", "the shape of the centers is not checked", "C132: refused or inside", ["C132"], "  _ <- assertb asrt (shape_eqb (i_shape f) (i_shape centers)) ;;\n", "")
mu("sa03", EN, "L", "the rank is not checked", "C132: refused or inside", ["C132"], "  _ <- assertb asrt (Nat.eqb (length (i_shape f)) (length (e_roi e))) ;;\n  _ <- assertb asrt (unlocked e S_L) ;;", "  _ <- assertb asrt (unlocked e S_L) ;;")
mu("sa04", EN, "W2", "only the mask of the weights is checked for 0 and 1", "C132: masks of 0 and 1", ["C132"], "  _ <- assertb asrt (binary gmask) ;;\n  _ <- assertb asrt (unlocked e S_W2) ;;", "  _ <- assertb asrt (unlocked e S_W2) ;;")
mu("sa05", EN, "window", "the window is one too wide", "C132: inside", ["C132"], "inb G (h + q0) (i + q1) (j + q2)", "inb G (h + q0) (i + q1) (j + q2 + 1)")
mu("sa06", EN, "mean", "the roi is not checked", "C132: mean refused for larger regions", ["C132"], "  _ <- assertb asrt ((d0 (e_first e) =? 1) && (d1 (e_first e) =? 1) && (d2 (e_first e) =? 1)) ;;\n  _ <- assertb asrt (unlocked e S_mean) ;;\n  a <- plus0 (e_first e) (qsum (i_vals f))", "  _ <- assertb asrt (unlocked e S_mean) ;;\n  a <- plus0 (e_first e) (qsum (i_vals f))")
mu("sa07", EN, "heightheight", "locked ensembles are accepted", "C132: one measure", ["C132"], "  _ <- assertb asrt (unlocked e S_heightheight) ;;\n", "")

CLF = "CollapseFloat.v"
mu("wf01", CLF, "frint", "truncated instead of rounded", "C133: the pixels of exact arithmetic", ["C133"], "then Ok (ZnearestE (B2R x)) else UB", "then Ok (Ztrunc (B2R x)) else UB")
mu("wf02", CLF, "frint", "halfway away from zero", "C133: the pixels of exact arithmetic", ["C133"], "then Ok (ZnearestE (B2R x)) else UB", "then Ok (ZnearestA (B2R x)) else UB")
mu("wf03", CLF, "findex_of", "not clipped", "C133: never fails to be made", ["C133"], "ravel_multi_index shape (clip_all shape x)", "ravel_multi_index shape x")
mu("wf04", CLF, "fcollapse", "never periodic", "C133: the pixels of exact arithmetic", ["C133"], "flabels_centers T asrt shape labels names periodic", "flabels_centers T asrt shape labels names false")
mu("wf05", CLF, "fcollapse", "the image of centers starts with ones", "C133: the image of exact arithmetic", ["C133"], "assign (repeat 0 (length labels)) index names", "assign (repeat 1 (length labels)) index names")
mu("wf06", CLF, "fcollapse", "labels in reverse order", "C133: the image of exact arithmetic", ["C133"], "  let names := names_of labels in", "  let names := rev (names_of labels) in")
mu("wf07", "CenterFloat.v", "faxis_center", "the sine without minus", "C133: the pixels of exact arithmetic", ["C133"], "t_atan2 T (Bopp zeta_bar) (Bopp xi_bar)", "t_atan2 T zeta_bar (Bopp xi_bar)")

LAY = "Layout.v"
mu("ly01", LAY, "clusters_in", "the layout is not asserted", "C134: clusters with assertions is right or refuses", ["C134"], "  _ <- assertb asrt (row_major a) ;;\n  _ <- make_default", "  _ <- make_default")
mu("ly02", LAY, "row_major", "axes of length one count", "C134: clusters of arrays in row-major order", ["C134"], "((n =? 1) || (a =? b)) && agree", "(a =? b) && agree")
mu("ly03", LAY, "row_major", "empty arrays count", "C134: clusters of arrays in row-major order", ["C134"], "  (msize a =? 0) || agree", "  agree")
mu("ly04", LAY, "like", "results of dynamic layout in column-major order", "C134: labels at their pixels", ["C134"], "(if fort then fstrides 1 (m_shape a) else cstrides (m_shape a))", "(fstrides 1 (m_shape a))")
mu("ly05", LAY, "flat", "counted from the start of the block", "C134: views read from their data pointer", ["C134"], "Definition flat (a : marr) (i : Z) : res Z := vget (m_block a) (m_base a + i).", "Definition flat (a : marr) (i : Z) : res Z := vget (m_block a) i.")
mu("ly06", LAY, "labels_sizes_in", "the last element is not counted", "C134: sizes of all pixels", ["C134"], "  v <- flats a (msize a) ;;\n  Ok (labels_sizes v).", "  v <- flats a (msize a - 1) ;;\n  Ok (labels_sizes v).")
mu("ly07", LAY, "labels_map_in", "from b to a", "C134: the map from a to b", ["C134"], "labels_map x y.", "labels_map y x.")
mu("ly08", LAY, "labels_reorder_in", "the order is not checked", "C134: the assertions of labels_reorder", ["C134"], "          assertb true (eqbl (unique l) (unique order))\n", "          Ok tt\n")
mu("ly09", LAY, "row_major", "column-major order accepted", "C134: clusters with assertions is right or refuses", ["C134"], "(m_strides a) (cstrides (m_shape a))", "(m_strides a) (fstrides 1 (m_shape a))")
mu("ly10", LAY, "labels_prune_in", "the labels are renamed from 0", "C134: the pruned labels", ["C134"], "labels_rename_in asrt fort a (lenZ unq) 2 (flat_rows (prune_table unq))", "labels_rename_in asrt fort a (lenZ unq) 2 (flat_rows (combine unq (zseq 0 (length unq))))")
mu("ly11", LAY, "fstrides", "the strides of row-major order", "C134: column-major results", ["C134"], "  | n :: t => acc :: fstrides (acc * n) t", "  | n :: t => zprod t :: fstrides (acc * n) t")

ALI = "Alias.v"
mu("al01", ALI, "pystep", "reading copies", "C135: what was read is the current labels", ["C135"], "| PRead => Ok (mkpy (py_st p) (py_heap p) (py_vars p ++ [0%nat]))", "| PRead =>\n      l <- deref p 0 ;;\n      Ok (mkpy (py_st p) (py_heap p ++ [l]) (py_vars p ++ [length (py_heap p)]))")
mu("al02", ALI, "pystep", "a copy is not a copy", "C135: a copy keeps the labels of the moment", ["C135"], "Ok (mkpy (py_st p) (py_heap p ++ [l]) (py_vars p ++ [length (py_heap p)]))", "Ok (mkpy (py_st p) (py_heap p ++ [l]) (py_vars p ++ [0%nat]))")
mu("al03", ALI, "pystep", "a call does not write its labels", "C135: the labeller is the one of its calls", ["C135"], "Ok (mkpy (fst r) (upd 0 (c_label (fst r)) (py_heap p)) (py_vars p))", "Ok (mkpy (fst r) (py_heap p) (py_vars p))")
mu("al04", ALI, "pystep", "writes go to the labeller", "C135: writing to a copy leaves the labeller alone", ["C135"], "(upd a (upd (Z.to_nat i) x l) (py_heap p))", "(upd 0 (upd (Z.to_nat i) x l) (py_heap p))")
mu("al05", ALI, "pystep", "a call forgets the other members", "C135: the labeller is the one of its calls", ["C135"], "Ok (mkpy (fst r) (upd 0 (c_label (fst r)) (py_heap p)) (py_vars p))", "Ok (mkpy (py_st p) (upd 0 (c_label (fst r)) (py_heap p)) (py_vars p))")

mu("pe01", "Path.v", "line_axis", "the first boundary is next to the start", "C136: paths end only through the pixel of the origin", ["C136"], "(inject_Z (Z.sgn d) * (1 # 2))", "(inject_Z p + inject_Z (Z.sgn d) * (1 # 2))")
mu("pe02", "Path.v", "reached", "one axis is enough", "C136: a path ends at x1", ["C136"], "forallb (fun d => d_c d =? d_to d) l", "existsb (fun d => d_c d =? d_to d) l")
mu("pe04", "Path.v", "crosses", "coarse tolerance", "C136: which paths end", ["C136"], "(1 # 1000000)", "(1 # 100)")
mu("pe05", "Path.v", "line_axis", "the first boundary is a whole pixel away", "C136: which paths end", ["C136"], "(inject_Z (Z.sgn d) * (1 # 2))", "(inject_Z (Z.sgn d))")

mu("sl01", "Ensemble.v", "W2c_walk", "counts written at the offset of the third axis", "C137: where W2c writes", ["C137"], "n <- incr (snd fn) (p0 + th) (p1 + ti) (p1 + tj) 1%Qc", "n <- incr (snd fn) (p0 + th) (p1 + ti) (p2 + tj) 1%Qc")
mu("sl02", "Ensemble.v", "W2c_walk", "values written at the offset of the third axis", "C137: where W2c writes", ["C137"], "f <- incr (fst fn) (p0 + th) (p1 + ti) (p1 + tj) v", "f <- incr (fst fn) (p0 + th) (p1 + ti) (p2 + tj) v")
mu("sl03", "Ensemble.v", "W2c_walk", "masked pixels are counted", "C137: what W2c counts", ["C137"], "                   if m =? 0 then\n                     to <- vget all q", "                   if (m =? 0) || (0 <? q) then\n                     to <- vget all q")
mu("sl04", "Ensemble.v", "W2c_walk", "the index is not advanced", "C137: what W2c counts", ["C137"], "W2c_walk P C Fm F label x all rest' (q + 1) fn", "W2c_walk P C Fm F label x all rest' (if q <? 0 then q + 1 else q) fn")

mu("dh01", "Dilate.v", "copy_slab", "labels already there are kept", "C138: which label is taken", ["C138"], "if v =? 0 then old else v", "if old =? 0 then v else old")
mu("dh02", "Dilate.v", "periodic_copy", "the two copies in the other order", "C138: lower end before upper end", ["C138"], "a <- above_to_below P a ;; below_to_above P a", "a <- below_to_above P a ;; above_to_below P a")
mu("dh03", "Dilate.v", "below_to_above", "axes in the other order", "C138: the order of the axes", ["C138"], "copy_slab ax (dim ax a - q - p) 0 p a)\n    [0; 1; 2]%nat a", "copy_slab ax (dim ax a - q - p) 0 p a)\n    [2; 1; 0]%nat a")
mu("dh04", "Dilate.v", "above_to_below", "axes in the other order", "C138: the order of the axes", ["C138"], "copy_slab ax p (dim ax a - q) q a)\n    [0; 1; 2]%nat a", "copy_slab ax p (dim ax a - q) q a)\n    [2; 1; 0]%nat a")
mu("dh05", "Dilate.v", "dil_iter", "copied in the first pass only", "C138: every pass folds back", ["C138"], "if per then periodic_copy P G else Ok G", "if per && (iter =? 0) then periodic_copy P G else Ok G")
mu("dh06", "Dilate.v", "dil_point", "the first pixel wins", "C138: the last pixel wins", ["C138"], "then l else at3 0 G a b c\n", "then (if at3 0 G a b c =? 0 then l else at3 0 G a b c) else at3 0 G a b c\n")

mu("ax01", CE, "all_axes", "every axis uses the first column", "C139: the axes of the centers follow", ["C139"], ":: all_axes periodic avg minus rest positions (S k)", ":: all_axes periodic avg minus rest positions k")
mu("ax02", "Path.v", "is_dominant", "the last axis is never dominant on its own", "C139: paths follow the axes", ["C139"],
   "else if is_dominant a X2 then Some X2\n", "else if is_dominant a X1 then Some X2\n")
mu("ax03", "Dilate.v", "crop", "offset of the second axis missing", "C139: the dilation follows the axes", ["C139"],
   "(fun h i j => at3 0 F (h + p0) (i + p1) (j + p2)).", "(fun h i j => at3 0 F (h + p0) i (j + p2)).")
mu("ax04", "Path.v", "others", "axis 1: the wrong minor axes", "C139: paths follow the axes", ["C139"], "| X1 => (X0, X2) |", "| X1 => (X0, X0) |")

mu("fp01", "Cluster.v", "unique", "the connected labels are not sorted", "C140: labels do not depend on the order of the kernel", ["C140"], "dedup (zsort l).", "dedup l.")
mu("fp02", "Cluster.v", "seq_outer", "the label is looked up by the position in the sequence", "C140: the list returned follows the pixels", ["C140"],
   "lab <- vget (c_label s) p ;;\n      r <- seq_inner", "lab <- vget (c_label s) i ;;\n      r <- seq_inner")
mu("fp03", "Cluster.v", "get_compare", "one column: the offset along the columns is used", "C140: labels follow the order of the axes", ["C140"],
   "if g_per g then Ok (s64 (wrap_unsigned n0 idx d0))", "if g_per g then Ok (s64 (wrap_unsigned n0 idx d1))")

mu("pz01", "Cluster.v", "prune", "the next label is not lowered", "C141: after one more prune the two labellers are the same", ["C141"],
   "Ok (mkst l new (c_nmerge s) renum2 (c_next s)).", "Ok (mkst l (c_new s) (c_nmerge s) renum2 (c_next s)).")
mu("pz02", "Cluster.v", "prune", "the renumbering is not set back", "C141: a prune does not change the clusters that follow", ["C141"],
   "Ok (mkst l new (c_nmerge s) renum2 (c_next s)).", "Ok (mkst l new (c_nmerge s) renum1 (c_next s)).")
mu("pz03", "Cluster.v", "prune_loop", "numbers are given from the last label down", "C141: the labels keep their order", ["C141"],
   "(zrange 1 n) (renum, 1).", "(rev (zrange 1 n)) (renum, 1).")

mu("op01", "Cluster.v", "merge", "the last of the sorted labels is the target", "C142: the smallest label is taken", ["C142"],
   "  match labels with\n  | [] => UB\n  | target :: rest =>\n      s' <- foldM", "  match rev labels with\n  | [] => UB\n  | target :: rest =>\n      s' <- foldM")
mu("op02", "Cluster.v", "merge", "only the second label is merged", "C142: all clusters next to the pixel become one", ["C142"],
   "foldM (fun s b => merge_detail s target b) rest s ;; Ok (s', target)", "foldM (fun s b => merge_detail s target b) (firstn 1 rest) s ;; Ok (s', target)")
mu("op03", "Cluster.v", "label_impl", "a new cluster does not use up its label", "C142: a label larger than all others", ["C142"],
   "Ok (mkst (c_label s') (c_new s + 1) (c_nmerge s') (c_renum s') (c_next s'))", "Ok (mkst (c_label s') (c_new s) (c_nmerge s') (c_renum s') (c_next s'))")
mu("op04", "Cluster.v", "label_impl", "the number of merges is not counted", "C142: all pixels of the clusters take the label", ["C142"],
   "(c_nmerge s2 + 1)", "(c_nmerge s2)")

mu("pm01", "PathFloat.v", "fmove", "the position is moved on from where it is", "C143: the pixels of C136", ["C143"],
   "(dplus (dz (g_from d)) (dtimes (g_v d) tm))", "(dplus (g_x d) (dtimes (g_v d) tm))")
mu("pm02", "PathFloat.v", "fcross", "the next crossing is two pixels on", "C143: the pixels of C136", ["C143"],
   "(dplus (g_next d) (g_sign d)) (g_x d)", "(dplus (dplus (g_next d) (g_sign d)) (g_sign d)) (g_x d)")
mu("pm03", "IntArith.v", "icross_all", "the number of pixels is not an int", "C143: calls that do not end overflow", ["C143"],
   "  nnz' <- i32 (nnz + 1) ;;\n  Ok (l', [findex l'], nnz').", "  Ok (l', [findex l'], nnz + 1).")
mu("pm04", "PathFloat.v", "fdist", "the distance is multiplied by the inverse", "C143: rounding is immaterial", ["C143"],
   "ddiv (dminus (g_next d) (g_x d)) (g_v d).", "dtimes (dminus (g_next d) (g_x d)) (ddiv (dz 1) (dz (Z.abs (g_to d - g_from d)))).")

mu("pm05", "PathFloat.v", "tolerance", "the crossings must agree exactly", "C126: no call runs forever without overflow", ["C126", "C143"],
   "Definition tolerance : double := ddiv done (dz 1000000).", "Definition tolerance : double := dzero.")
mu("pm06", "IntArith.v", "icross_each", "the number of pixels is not an int", "C126: no call runs forever without overflow", ["C126", "C143"],
   "        nnz' <- i32 (nnz + 1) ;;\n        r <- icross_each tm (done ++ [d']) todo' nnz' ;;", "        r <- icross_each tm (done ++ [d']) todo' (nnz + 1) ;;")

mu("em01", "EnsembleMachine.v", "mL_stamp", "the path starts one pixel off", "C144: the same paths", ["C144"],
   "rows <- ipath (fpath_fuel e) [0; 0; 0] s mode ;;\n  a <-", "rows <- ipath (fpath_fuel e) [0; 0; 1] s mode ;;\n  a <-")
mu("em02", "EnsembleMachine.v", "mW2c_stamp", "the path in the reverse direction", "C144: the same paths", ["C144"],
   "rows <- ipath (fpath_fuel e) [0; 0; 0] s mode ;;\n  fn <-", "rows <- ipath (fpath_fuel e) s [0; 0; 0] mode ;;\n  fn <-")
mu("em03", "EnsembleMachine.v", "madd", "W2c ignores the mask", "C144: the same outcome", ["C144"],
   "mW2c asrt e c ce f (mask1 f m) mode", "mW2c asrt e c ce f (mask1 f None) mode")
mu("em04", "EnsembleMachine.v", "mL", "the mode is ignored", "C144: the same paths", ["C144"],
   "foldM (mL_stamp P F (lenZ (i_vals f)) mode)", "foldM (mL_stamp P F (lenZ (i_vals f)) Bresenham)")
mu("em05", "PathFloat.v", "tolerance", "the crossings must agree up to 1e-2", "C144: rounding is immaterial", ["C144", "C143", "C83"],
   "ddiv done (dz 1000000)", "ddiv done (dz 100)")

mu("tk01", "Labels.v", "labels_map", "the last pair of a label counts, not the first", "C145: named after the first piece", ["C145"],
   "Ok (memplace m x y))\n        (zseq 0 (length a)) [].", "Ok (mset (memplace m x y) x y))\n        (zseq 0 (length a)) [].")
mu("tk02", "Labels.v", "labels_map", "the columns are swapped", "C145: one row per label of the first argument", ["C145"],
   "Ok (memplace m x y))\n        (zseq 0 (length a)) [].", "Ok (memplace m y x))\n        (zseq 0 (length a)) [].")
mu("tk03", "Labels.v", "labels_map", "the first pixel is skipped", "C145: one row per label", ["C145"],
   "(zseq 0 (length a)) [].", "(zseq 1 (pred (length a))) [].")
mu("tk04", "Labels.v", "labels_rename", "labels that the table turns into zero stay", "C145: the table applied", ["C145"],
   "let (m', v) := mindex m l in Ok (m', ret ++ [v]))\n             labels (m, []) ;;\n  Ok (snd r).", "let (m', v) := mindex m l in Ok (m', ret ++ [Z.max l v]))\n             labels (m, []) ;;\n  Ok (snd r).")

mu("fr01", "StructureFreq.v", "freq_index", "the positive half ends one early", "C146: order and sign of the frequencies", ["C146"],
   "if k <? (n - 1) / 2 + 1 then k else k - ((n - 1) / 2 + 1) - n / 2", "if k <? n / 2 then k else k - n / 2 - (n - n / 2)")
mu("fr02", "StructureFreq.v", "ffreq", "each index is divided by n", "C146: the model of fftfreq (refutations)", ["C146"],
   "dtimes (dz (freq_index n k)) (ddiv done (dz n))", "ddiv (dz (freq_index n k)) (dz n)")
mu("fr03", "StructureFreq.v", "fq", "the axes are swapped", "C146: frequencies along the axis asked for", ["C146"],
   "| Some 1 => Ok (fun i => ffreq m (nth 1 i 0))", "| Some 1 => Ok (fun i => ffreq m (nth 0 i 0))")
mu("fr04", "StructureFreq.v", "fqnorm", "no square root", "C146: the norm", ["C146"],
   "fun i => np_sqrt (dplus (np_square (ffreq n (nth 0 i 0))) (np_square (ffreq m (nth 1 i 0)))))", "fun i => dplus (np_square (ffreq n (nth 0 i 0))) (np_square (ffreq m (nth 1 i 0))))")
mu("fr05", "StructureFreq.v", "fqnorm", "the columns of a sample are as many as its rows", "C146: the norm of samples that are not square", ["C146"],
   "(np_square (ffreq m (nth 1 i 0)))", "(np_square (ffreq n (nth 1 i 0)))")
mu("fr06", "StructureFreq.v", "fqnorm", "the frequency n/2 is listed too", "C146: extent of qnorm", ["C146"],
   "| [n] => Ok ([Z.min n (stop_of n)],", "| [n] => Ok ([Z.min n (stop_of n + 1)],")
mu("fr07", "CenterFloat.v", "fcenter_of_mass", "weights are not counted", "C105: one weight per position", ["C105"],
   "else if negb (Nat.eqb (length weights) (length positions)) then Throw", "else if negb (Nat.eqb (length weights) (length positions)) then UB")
mu("fr08", "Center.v", "center_of_mass", "more weights than positions are accepted", "C48: one weight per position", ["C48"],
   "else if negb (Nat.eqb (length weights) (length positions)) then Throw", "else if negb (Nat.leb (length positions) (length weights)) then Throw")

mu("df01", "EnsembleDistFloat.v", "flinspace", "the step is over n intervals", "C147: distances along an axis", ["C147"],
   "(dz (Z.max 1 (n - 1)))", "(dz (Z.max 1 n))")
mu("df02", "EnsembleDistFloat.v", "flinspace", "the first value is p, not -p", "C147: sign of the distances", ["C147"],
   "dtimes (dz (-1)) (dz p)", "dtimes (dz 1) (dz p)")
mu("df03", "EnsembleDistFloat.v", "flinspace", "no protection for a single point: 0/0", "C147: axes of one element", ["C147"],
   "(dz (Z.max 1 (n - 1)))", "(dz (n - 1))")
mu("df04", "EnsembleDistFloat.v", "fdistance_axis", "axis 1 uses the padding of axis 0", "C147: regions whose axes differ", ["C147"],
   "flinspace w (fst P1) (snd P1) n1 i", "flinspace w (fst P0) (snd P0) n1 i")
mu("df05", "EnsembleDistFloat.v", "fsum_squares", "the last axis is left out", "C147: distance to the centre", ["C147"],
   "(zrange 0 (lenZ (f_roi e))) (repeat", "(zrange 0 (lenZ (f_roi e) - 1)) (repeat")
mu("df06", "EnsembleDistFloat.v", "fdistance_h", "the first length is used for all axes", "C147: distance(h)", ["C147"],
   "fun i x => dtimes x (nth (Z.to_nat i) h dzero)", "fun i x => dtimes x (nth 0 h dzero)")
mu("df07", "EnsembleDistFloat.v", "fdistance", "no root", "C147: distance()", ["C147"],
   "s <- fsum_squares L w asrt e (fun _ x => x) ;; Ok (map (pow_half L) s).", "s <- fsum_squares L w asrt e (fun _ x => x) ;; Ok s.")
mu("df08", "EnsembleDistFloat.v", "fdistance_h_axis", "the first length is used for all axes", "C147: distance(h, axis)", ["C147"],
   "s <- vget h axis ;;", "s <- vget h 0 ;;")
mu("df09", "EnsembleDistFloat.v", "fdistance_h", "the number of lengths is not checked", "C147: wrong arguments throw", ["C147"],
   """(h : list double) : res (list double) :=
  _ <- assertb asrt (lenZ (f_roi e) =? lenZ h) ;;
  _ <- mapM""", """(h : list double) : res (list double) :=
  _ <- assertb asrt (lenZ (f_roi e) <=? lenZ h) ;;
  _ <- mapM""")
mu("df10", "EnsembleDistFloat.v", "fdistance_axis", "axis equal to the rank is let through", "C147: wrong arguments throw", ["C147"],
   "assertb asrt (axis <? lenZ (f_roi e))", "assertb asrt (axis <=? lenZ (f_roi e))")
mu("wr01", "Ensemble.v", "W2c", "image padded with zeros, always", "C115: rolled, every region of interest", ["C115"],
   "  F <- pad_mode (e_per e) 0%Qc f3 P ;;\n  Fm <- pad_mode (e_per e) 0 fm3 P ;;", "  F <- pad_mode false 0%Qc f3 P ;;\n  Fm <- pad_mode (e_per e) 0 fm3 P ;;")
mu("wr02", "Ensemble.v", "W2c", "image and mask padded with zeros, always", "C120: repeated, every region of interest", ["C120"],
   "  F <- pad_mode (e_per e) 0%Qc f3 P ;;\n  Fm <- pad_mode (e_per e) 0 fm3 P ;;", "  F <- pad_mode false 0%Qc f3 P ;;\n  Fm <- pad_mode false 0 fm3 P ;;")
mu("wr03", "Ensemble.v", "W2c_walk", "counts written at the offset of the third axis", "C131: W2c of the centers, every region of interest", ["C131"],
   "n <- incr (snd fn) (p0 + th) (p1 + ti) (p1 + tj) 1%Qc", "n <- incr (snd fn) (p0 + th) (p1 + ti) (p2 + tj) 1%Qc")

mu("qf01", "Ensemble.v", "S2_point", "the product is clipped: counts where the second pixel is larger", "C148: S2 is positive definite", ["C148"],
   "plus (e_first e) (fun a b c => f * Gi a b c * Gmii a b c)%Qc)\n          (e_second e) (plus (e_norm e) Gmii)).\n\nDefinition S2", "plus (e_first e) (fun a b c => f * (Gi a b c - f) * Gmii a b c)%Qc)\n          (e_second e) (plus (e_norm e) Gmii)).\n\nDefinition S2")
mu("qf02", "Ensemble.v", "C2_point", "different labels are counted", "C148: C2 is positive definite", ["C148"],
   "if f =? Gi a b c then Gmii a b c else 0%Qc", "if f =? Gi a b c then 0%Qc else Gmii a b c")
mu("qf03", "Ensemble.v", "hh_point", "the difference is not squared", "C148: height differences are a distance", ["C148"],
   "let sq a b c := ((Fi a b c - f) * (Fi a b c - f))%Qc in", "let sq a b c := (Fi a b c - f)%Qc in")
mu("qf04", "Ensemble.v", "hh_point", "fourth powers", "C148: the triangle inequality", ["C148"],
   "(plus (e_first e) (fun a b c => sq a b c * Fmii a b c)%Qc)", "(plus (e_first e) (fun a b c => sq a b c * sq a b c * Fmii a b c)%Qc)")

mu("lc01", "Ensemble.v", "C2_point", "the product of the labels is summed", "C149: C2 is a sum of S2", ["C149"],
   "if f =? Gi a b c then Gmii a b c else 0%Qc", "if f =? Gi a b c then zq f * Gmii a b c else 0%Qc")
mu("lc02", "Ensemble.v", "C2_point", "pixels of the background are compared too", "C149: C2 is a sum of S2", ["C149"],
   "(if f =? 0 then e_first e\n           else plus (e_first e) (fun a b c => if f =? Gi", "(if f =? -1 then e_first e\n           else plus (e_first e) (fun a b c => if f =? Gi")
mu("lc03", "Ensemble.v", "hh_point", "half the square", "C149: heightheight from S2", ["C149"],
   "let sq a b c := ((Fi a b c - f) * (Fi a b c - f))%Qc in", "let sq a b c := ((Fi a b c - f) * (Fi a b c - f) / (1 + 1))%Qc in")
mu("lc04", "Ensemble.v", "heightheight", "padded with zeros also if periodic", "C149: heightheight from S2", ["C149"],
   "  F <- pad_mode (e_per e) 0%Qc f3 P ;;\n  foldM (hh_point", "  F <- pad_mode false 0%Qc f3 P ;;\n  foldM (hh_point")
mu("lc05", "Ensemble.v", "L_walk", "the walk goes on after the phase ended", "C150: steps of L", ["C150"],
   "if v =? 0 then Ok first\n", "if v =? 0 then L_walk P F x rows' first\n")
mu("lc06", "Ensemble.v", "L_norm", "the norm counts one per path", "C150: L is a fraction", ["C150"],
   "incr norm (p0 + dh) (p1 + di) (p2 + dj) (zq size)", "incr norm (p0 + dh) (p1 + di) (p2 + dj) 1%Qc")

mu("sx09", "StructureExn.v", "base_allocate", "a refused first sample is counted", "C112: what a refused first sample leaves behind", ["C112"],
   "Definition base_allocate (shape : list Z) : stat := mkstat shape (fun _ => Some 0%R) 0.", "Definition base_allocate (shape : list Z) : stat := mkstat shape (fun _ => Some 0%R) 1.")

mu("rw01", "Cluster.v", "default_dx", "rank 1: the pixel to the left is not looked at", "C151: stretches", ["C151"],
   "| 1%nat => Ok [[-1]; [1]]", "| 1%nat => Ok [[1]]")
mu("rw02", "Cluster.v", "get_compare", "rank 1, not periodic: the last pixel has a neighbour behind it", "C151: a row ends at its last pixel", ["C151"],
   "let c := s64 (idx + d0) in\n           if (c <? 0) || (n <=? c) then Ok (-1) else Ok (s64 (idx + d0))", "let c := s64 (idx + d0) in\n           if (c <? 0) || (n <? c) then Ok (-1) else Ok (s64 (idx + d0))")
mu("rw03", "Cluster.v", "get_compare", "rank 1: the periodicity is not looked at", "C151: the last stretch goes on in the first", ["C151"],
   "else if g_per g then Ok (s64 (wrap_unsigned n idx d0))\n      else let c", "else if false then Ok (s64 (wrap_unsigned n idx d0))\n      else let c")
mu("rw04", "Cluster.v", "prune_loop", "new labels begin at 2", "C151: stretches are numbered from one", ["C151"],
   "(zrange 1 n) (renum, 1).", "(zrange 1 n) (renum, 2).")

mu("eu01", "Cluster.v", "get_compare", "rank 2, not periodic: the last column touches the next row", "C152: no pairs over the boundary", ["C152"],
   "if (ii <? 0) || (n0 <=? ii) || (jj <? 0) || (n1 <=? jj) then Ok (-1)", "if (ii <? 0) || (n0 <=? ii) || (jj <? 0) || (n1 <? jj) then Ok (-1)")
mu("eu02", "Cluster.v", "default_dx", "rank 2: pixels that share a corner are joined", "C152: face neighbours only", ["C152"],
   "[[-1; 0]; [0; -1]; [0; 1]; [1; 0]]", "[[-1; -1]; [-1; 0]; [0; -1]; [0; 1]; [1; 0]; [1; 1]]")
mu("eu03", "Cluster.v", "clusters", "the labels are not pruned", "C152: labels count the clusters", ["C152"],
   "s' <- prune s ;;\n  Ok (c_label s').", "s' <- Ok s ;;\n  Ok (c_label s').")
mu("lc07", "Ensemble.v", "W2_point", "masked pixels count in the weights", "C149: W2 is a ratio of S2", ["C149"],
   "(plus (e_norm e) (fun a b c => f * Gmii a b c)%Qc)).\n\nDefinition W2 ", "(plus (e_norm e) (fun a b c => f)%Qc)).\n\nDefinition W2 ")

mu("eu04", "Cluster.v", "kernel_to_dx", "at most four offsets are kept", "C65: a larger kernel never splits clusters", ["C65"],
   "Ok (map (fun ix => map2 Z.sub ix mid) (argwhere kshape kvals')).", "Ok (firstn 4 (map (fun ix => map2 Z.sub ix mid) (argwhere kshape kvals'))).")

mu("un01", "Cluster.v", "get_compare", "rank 2, not periodic: the last column is no neighbour", "C153: neighbours along every axis share a label", ["C153"],
   "if (ii <? 0) || (n0 <=? ii) || (jj <? 0) || (n1 <=? jj) then Ok (-1)", "if (ii <? 0) || (n0 <=? ii) || (jj <? 0) || (n1 - 1 <=? jj) then Ok (-1)")
mu("un02", "Cluster.v", "default_dx", "rank 3: the neighbour behind is missed", "C153: neighbours along every axis share a label", ["C153"],
   "[0; 0; -1]; [0; 0; 1];", "[0; 0; 1];")

mu("un03", "Ensemble.v", "L", "L counts its path points over one pixel too many", "C153: L divides by the number of pixels", ["C153"],
   "foldM (L_stamp P F (lenZ (i_vals f)) mode)", "foldM (L_stamp P F (lenZ (i_vals f) + 1) mode)")
mu("un04", "Ensemble.v", "L", "a periodic image is padded with zeros", "C153: L wraps as S2 does", ["C153"],
   "F <- pad_mode (e_per e) 0 f3 P ;;\n  foldM (L_stamp", "F <- pad_mode false 0 f3 P ;;\n  foldM (L_stamp")

mu("eu05", "Cluster.v", "kernel_to_dx", "only the first two offsets of a kernel are kept", "C152: pairs of neighbours of the kernel", ["C152"],
   "Ok (map (fun ix => map2 Z.sub ix mid) (argwhere kshape kvals')).", "Ok (firstn 2 (map (fun ix => map2 Z.sub ix mid) (argwhere kshape kvals'))).")
mu("eu06", "Cluster.v", "make_kernel", "a labeller with a kernel is never periodic", "C152: pairs over the boundary of a periodic image", ["C152"],
   "dx <- kernel_to_dx asrt kshape kvals ;; Ok (mkcfg shape per dx)", "dx <- kernel_to_dx asrt kshape kvals ;; Ok (mkcfg shape false dx)")
mu("un05", "Cluster.v", "kernel_to_dx", "only the first two offsets of a kernel are kept", "C153: every offset of the kernel joins pixels", ["C153"],
   "Ok (map (fun ix => map2 Z.sub ix mid) (argwhere kshape kvals')).", "Ok (firstn 2 (map (fun ix => map2 Z.sub ix mid) (argwhere kshape kvals'))).")
mu("lx01", "Cluster.v", "get_compare", "rank 2, not periodic: the last column is no neighbour", "C110: a straight stretch lies in one cluster", ["C110"],
   "if (ii <? 0) || (n0 <=? ii) || (jj <? 0) || (n1 <=? jj) then Ok (-1)", "if (ii <? 0) || (n0 <=? ii) || (jj <? 0) || (n1 - 1 <=? jj) then Ok (-1)")
mu("eu07", "Ensemble.v", "S2", "a periodic image is padded with zeros", "C152: S2 sums the pairs over the boundary", ["C152"],
   "G <- pad_mode (e_per e) 0%Qc g3 P ;;\n  foldM (S2_point", "G <- pad_mode false 0%Qc g3 P ;;\n  foldM (S2_point")

mu("oc01", "Cluster.v", "default_dx", "rank 2: pixels that share a corner are joined", "C154: connected by faces", ["C154"],
   "[[-1; 0]; [0; -1]; [0; 1]; [1; 0]]", "[[-1; -1]; [-1; 0]; [0; -1]; [0; 1]; [1; 0]; [1; 1]]")
mu("oc02", "Ensemble.v", "C2", "labels of the second image are padded as if not periodic", "C154: C2 sees the pairs over the boundary", ["C154"],
   "G <- pad_mode (e_per e) 0 g3 P ;;\n  foldM (C2_point", "G <- pad_mode false 0 g3 P ;;\n  foldM (C2_point")

mu("rp01", "Ensemble.v", "hh_point", "the difference is not squared", "C155: terms of opposite sign cannot cancel", ["C155"],
   "let sq a b c := ((Fi a b c - f) * (Fi a b c - f))%Qc in", "let sq a b c := (Fi a b c - f)%Qc in")
mu("rp02", "Ensemble.v", "heightheight", "a periodic image is padded with zeros", "C155: pairs over the boundary are compared", ["C155"],
   "F <- pad_mode (e_per e) 0%Qc f3 P ;;\n  foldM (hh_point", "F <- pad_mode false 0%Qc f3 P ;;\n  foldM (hh_point")
mu("rp03", "Ensemble.v", "S2", "a periodic image is padded with zeros", "C155: S2 sees the pairs over the boundary", ["C155"],
   "G <- pad_mode (e_per e) 0%Qc g3 P ;;\n  foldM (S2_point", "G <- pad_mode false 0%Qc g3 P ;;\n  foldM (S2_point")

mu("rp04", "Ensemble.v", "hh_point", "the mask of the second pixel is ignored", "C155: masked pixels may break the pattern", ["C155"],
   "    Fm <- window 0 P Fmask x ;;\n    let Fmii a b c := (1 - zq (Fm a b c))%Qc in\n    f <- aget3 F x ;;\n    let sq a b c", "    Fm <- window 0 P Fmask x ;;\n    let Fmii a b c := 1%Qc in\n    f <- aget3 F x ;;\n    let sq a b c")
mu("rp05", "Ensemble.v", "hh_point", "the difference is cubed", "C155: terms of opposite sign cannot cancel", ["C155"],
   "    Fi <- window 0%Qc P F x ;;\n    Fm <- window 0 P Fmask x ;;\n    let Fmii a b c := (1 - zq (Fm a b c))%Qc in\n    f <- aget3 F x ;;\n    let sq a b c := ((Fi a b c - f) * (Fi a b c - f))%Qc in", "    Fi <- window 0%Qc P F x ;;\n    Fm <- window 0 P Fmask x ;;\n    let Fmii a b c := (1 - zq (Fm a b c))%Qc in\n    f <- aget3 F x ;;\n    let sq a b c := ((Fi a b c - f) * (Fi a b c - f) * (Fi a b c - f))%Qc in")

mu("rg01", "Ensemble.v", "S2", "the first image is taken for both", "C156: S2(f, g) compares two images", ["C156"],
   "G <- pad_mode (e_per e) 0%Qc g3 P ;;\n  foldM (S2_point", "G <- pad_mode (e_per e) 0%Qc f3 P ;;\n  foldM (S2_point")

mu("sc01", "Ensemble.v", "C2", "labels of the second image are padded as if not periodic", "C157: pairs over the boundary count", ["C157"],
   "G <- pad_mode (e_per e) 0 g3 P ;;\n  foldM (C2_point", "G <- pad_mode false 0 g3 P ;;\n  foldM (C2_point")
mu("sc02", "Ensemble.v", "C2_point", "every labelled pixel counts, whatever its label", "C157: the same label, not any label", ["C157"],
   "if f =? Gi a b c then Gmii a b c else 0%Qc", "if negb (Gi a b c =? 0) then Gmii a b c else 0%Qc")

mu("pk01", "Array3.v", "pad_constant", "axis 0: the image is placed by the width of the other side", "C34: even regions of interest have unequal sides", ["C34"],
   "(fun h i j => if inb a (h - p0) (i - p1) (j - p2)\n                  then at3 v a (h - p0) (i - p1) (j - p2) else v).", "(fun h i j => if inb a (h - q0) (i - p1) (j - p2)\n                  then at3 v a (h - q0) (i - p1) (j - p2) else v).")
mu("tw01", "Refused.v", "try_W2c", "the ensemble is locked before the arguments are checked", "C116: a refused call leaves no trace", ["C116"],
   "act ens unit :=\n  _ <-- check asrt (fun _ => shape_eqb (i_shape f) (i_shape clusters)) ;;;", "act ens unit :=\n  _ <-- lock S_W2c ;;;\n  _ <-- check asrt (fun _ => shape_eqb (i_shape f) (i_shape clusters)) ;;;")
mu("tw02", "Refused.v", "try_add_sequence", "the pixels are labelled before the positions are checked", "C116: a refused call leaves no trace", ["C116"],
   "  _ <-- check asrt (fun s => legal_points s idx) ;;;\n  s <-- this_ ;;;\n  r <-- expr (seq_outer (2 * length idx + 2) g s idx 0 []) ;;;\n  _ <-- assign (fst r) ;;;", "  s <-- this_ ;;;\n  r <-- expr (seq_outer (2 * length idx + 2) g s idx 0 []) ;;;\n  _ <-- assign (fst r) ;;;\n  _ <-- check asrt (fun _ => legal_points s idx) ;;;")
mu("ib01", "IntArith.v", "ibres_check", "a step is made only if the decision is positive, not zero", "C126: on ints the same path", ["C126"],
   "if 0 <=? get d i then\n    xi <- i32", "if 0 <? get d i then\n    xi <- i32")
mu("ib02", "IntArith.v", "ipaint_periodic", "row and column displacements swapped", "C126: on ints the same circles", ["C126"],
   "a <- i32 (x + di) ;; b <- i32 (y + dj) ;; paint_periodic n m out a b", "a <- i32 (x + dj) ;; b <- i32 (y + di) ;; paint_periodic n m out a b")
mu("dn01", "Dilate.v", "dilate_default_n", "no number of iterations for the largest label", "C23: every label is dilated n times", ["C23"],
   "dilate_default asrt fs f (repeat n (Z.to_nat (u64 (m + 1)))) per.", "dilate_default asrt fs f (repeat n (Z.to_nat (u64 m))) per.")

mu("rq01", "Cluster.v", "make_default", "the labeller is never periodic", "C158: clusters across the boundary", ["C158"],
   "dx <- default_dx (length shape) ;; Ok (mkcfg shape per dx).", "dx <- default_dx (length shape) ;; Ok (mkcfg shape false dx).")

mu("pz11", "Ensemble.v", "plus0", "the sum is overwritten, not added to", "C44: mean over all samples", ["C44"],
   "(upd 0 (x + v)%Qc (dat A))", "(upd 0 v (dat A))")
mu("so01", "Ensemble.v", "stride_off", "the stride of axis 0 forgets the length of axis 2", "C40: counts are stored at their offset", ["C40"],
   "a * (d1 m * d2 m)", "a * d1 m")
mu("ir01", "Ensemble.v", "incr", "a count is overwritten, not added to", "C40: all free paths count", ["C40"],
   "l <- vset (dat m) o (x + v)%Qc ;;", "l <- vset (dat m) o v ;;")
mu("bn01", "Ensemble.v", "binary", "a mask may hold 2", "C132: a mask that is not binary is refused", ["C132"],
   "forallb (fun x => (x =? 0) || (x =? 1)) (i_vals m).", "forallb (fun x => (x =? 0) || (x =? 1) || (x =? 2)) (i_vals m).")
mu("mf01", "Structure.v", "mflip0", "rows are mirrored about the wrong one", "C53: u(q) u(-q)", ["C53"],
   "(fun i j => mat_at M (mrows M - 1 - i) j)", "(fun i j => mat_at M (mrows M - i) j)")
mu("cn11", "LabelsTyped.v", "common", "of two types of one width the signed one is taken", "C124: exact for every integral type", ["C124"],
   "else if signed a then (if bits b <? bits a then a else b)", "else if signed a then (if bits b <=? bits a then a else b)")
