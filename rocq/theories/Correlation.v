(** * Model of /repo/src/correlation.rs *)

From Verif Require Export Num Distribution Smooth.

Section Correlation.
  Context {F : Type} {O : FOps F}.
  Local Open Scope F_scope.

  (** correlation.rs:54-59 etc.: the windows of both series, zipped. *)
  Definition zip_windows (window : nat) (s1 s2 : list F)
    : result (list (list F * list F)) :=
    let* a := rwindows window s1 in
    let* b := rwindows window s2 in
    Ok (combine a b).

  (** correlation.rs:54-66: the accumulators of [pcc]
      (sum_xy, sum_x, sum_y, sum_x2, sum_y2). *)
  Definition pcc_sums (x_win y_win : list F) : F * F * F * F * F :=
    fold_left (fun '(sxy, sx, sy, sx2, sy2) '(x, y) =>
                 (sxy + x * y, sx + x, sy + y, sx2 + x * x, sy2 + y * y))
              (combine x_win y_win) (#0, #0, #0, #0, #0).

  (** correlation.rs:53-70: closure of [pcc]. *)
  Definition pcc_win (window : nat) (p : list F * list F) : F :=
    let '(sxy, sx, sy, sx2, sy2) := pcc_sums (fst p) (snd p) in
    let n := fofnat window in
    (n * sxy - sx * sy) / (fsqrt (n * sx2 - sx * sx) * fsqrt (n * sy2 - sy * sy)).

  (** correlation.rs:44-72 [pcc] *)
  Definition pcc (series1 series2 : list F) (window : nat) : result (list F) :=
    let* k := usub window 1 in
    let* ws := zip_windows window series1 series2 in
    Ok (pad k fnan ++ map (pcc_win window) ws).

  (** correlation.rs:100-106 [rsq] *)
  Definition rsq (series1 series2 : list F) (window : nat) : result (list F) :=
    let* p := pcc series1 series2 window in
    Ok (map (fun x => x * x) p).

  (** correlation.rs:139-142, 145-148: simple returns. *)
  Definition returns (s : list F) : list F :=
    map (fun w => at_ w 1 / at_ w 0 - #1) (windows 2 s).

  (** correlation.rs:151-159: newest deviation product and square. *)
  Definition beta_dev (window : nat) (p : list F * list F) : F * F :=
    let '(x_win, y_win) := p in
    let sum_x := fsum x_win in
    let sum_y := fsum y_win in
    ((at_ x_win (window - 1) - sum_x / fofnat window)
     * (at_ y_win (window - 1) - sum_y / fofnat window),
     powi2 (at_ y_win (window - 1) - sum_y / fofnat window)).

  (** correlation.rs:162-170: ratio of the averaged products. *)
  Definition beta_win (window : nat) (w : list (F * F)) : F :=
    let '(sc, sv) :=
      fold_left (fun '(sc, sv) '(c, v) => (sc + c, sv + v)) w (#0, #0) in
    (sc / fofnat window) / (sv / fofnat window).

  (** correlation.rs:133-173 [beta] *)
  Definition beta (series1 series2 : list F) (window : nat) : result (list F) :=
    let* k := usub window 1 in
    let* ws := zip_windows window (returns series1) (returns series2) in
    let* ws2 := rwindows window (map (beta_dev window) ws) in
    Ok (pad (k * 2 + 1) fnan ++ map (beta_win window) ws2).

  (** correlation.rs:198-210 [perf] *)
  Definition perf (series1 series2 : list F) (window : nat) : result (list F) :=
    let* m1 := sma series1 window in
    let* m2 := sma series2 window in
    Ok (map (fun '(x, y, ma_x, ma_y) => x / y * (ma_y / ma_x))
            (zip4 series1 series2 m1 m2)).

  (** correlation.rs:236-244 [rsc] *)
  Definition rsc (series1 series2 : list F) : list F :=
    map (fun '(x, y) => x / y) (combine series1 series2).

  (** correlation.rs:280-287: closure of [srcc]; [rank(.., None)] is [Min]. *)
  Definition srcc_win (srt : sort_oracle F) (p : list F * list F) : result F :=
    let* rx := rank srt (fst p) None in
    let* ry := rank srt (snd p) None in
    let* '(cov_xy, std_x, std_y) := cov_stdev rx ry in
    Ok (cov_xy / (std_x * std_y)).

  (** correlation.rs:271-288 [srcc] *)
  Definition srcc (srt : sort_oracle F) (series1 series2 : list F) (window : nat)
    : result (list F) :=
    let* k := usub window 1 in
    let* ws := zip_windows window series1 series2 in
    let* vs := rmap (srcc_win srt) ws in
    Ok (pad k fnan ++ vs).

  (** correlation.rs:332-333: the pairs [(i, j)], [i < j], in loop order. *)
  Definition krcc_pairs (window : nat) : list (nat * nat) :=
    flat_map (fun i => map (fun j => (i, j)) (seq (i + 1) (window - (i + 1))))
             (seq 0 (window - 1)).

  (** correlation.rs:334-343: (nc, xy_tie, x_tie, y_tie). *)
  Definition krcc_counts (window : nat) (x_win y_win : list F) : F * F * F * F :=
    fold_left (fun '(nc, xyt, xt, yt) '(i, j) =>
                 let xi := at_ x_win i in
                 let xj := at_ x_win j in
                 let yi := at_ y_win i in
                 let yj := at_ y_win j in
                 (nc + fbool ((fsignum (xi - xj) =? fsignum (yi - yj)) && fneb xi xj),
                  xyt + fbool ((xi =? xj) && (yi =? yj)),
                  xt + fbool (xi =? xj),
                  yt + fbool (yi =? yj)))
              (krcc_pairs window) (#0, #0, #0, #0).

  (** correlation.rs:326-349: closure of [krcc]. *)
  Definition krcc_win (window : nat) (p : list F * list F) : result F :=
    let '(nc, xyt, xt, yt) := krcc_counts window (fst p) (snd p) in
    let* prod := umul (N.of_nat window) (N.of_nat (window - 1)) in
    let tot := fofN prod * flit 5 10 in
    let nd := tot - nc - xt - yt + xyt in
    Ok ((nc - nd) / fsqrt ((tot - xt) * (tot - yt))).

  (** correlation.rs:317-351 [krcc] *)
  Definition krcc (series1 series2 : list F) (window : nat) : result (list F) :=
    let* k := usub window 1 in
    let* ws := zip_windows window series1 series2 in
    let* vs := rmap (krcc_win window) ws in
    Ok (pad k fnan ++ vs).

  (** correlation.rs:391-403: the bivariate rank [q[i]]. *)
  Definition hoeffd_q (rank_x rank_y : list F) (i : nat) : F :=
    let rxi := at_ rank_x i in
    let ryi := at_ rank_y i in
    fold_left (fun q '(rxj, ryj) =>
                 let q1 := q + fbool ((rxj <? rxi) && (ryj <? ryi)) in
                 let q2 := q1 + flit 25 100 * fbool ((rxj =? rxi) && (ryj =? ryi)) in
                 q2 + flit 5 10 * fbool (((rxj =? rxi) && (ryj <? ryi))
                                         || ((rxj <? rxi) && (ryj =? ryi))))
              (combine rank_x rank_y) #1
    - flit 25 100.

  (** correlation.rs:404-410: the three sums (d1, d2, d3). *)
  Definition hoeffd_sums (rank_x rank_y q : list F) : F * F * F :=
    (fold_left (fun acc x => acc + (x - #1) * (x - #2)) q #0,
     fold_left (fun acc '(x, y) => acc + (x - #1) * (x - #2) * (y - #1) * (y - #2))
               (combine rank_x rank_y) #0,
     fold_left (fun acc '(q, x, y) => acc + (x - #2) * (y - #2) * (q - #1))
               (zip3 q rank_x rank_y) #0).

  (** correlation.rs:388-414: closure of [hoeffd]; the five-fold product of
      line 413 is computed in [usize]. *)
  Definition hoeffd_win (srt : sort_oracle F) (window : nat) (p : list F * list F)
    : result F :=
    let* rank_x := rank srt (fst p) (Some RAverage) in
    let* rank_y := rank srt (snd p) (Some RAverage) in
    let q := map (hoeffd_q rank_x rank_y) (seq 0 window) in
    let '(d1, d2, d3) := hoeffd_sums rank_x rank_y q in
    let W := N.of_nat window in
    let* w1 := usubN W 1 in
    let* w2 := usubN W 2 in
    let* w3 := usubN W 3 in
    let* p23 := umul w2 w3 in
    let* w4 := usubN W 4 in
    let* m1 := umul W w1 in
    let* m2 := umul m1 w2 in
    let* m3 := umul m2 w3 in
    let* m4 := umul m3 w4 in
    Ok (#30 * (fofN p23 * d1 + d2 - #2 * fofN w2 * d3) / fofN m4).

  (** correlation.rs:379-416 [hoeffd] *)
  Definition hoeffd (srt : sort_oracle F) (series1 series2 : list F) (window : nat)
    : result (list F) :=
    let* k := usub window 1 in
    let* ws := zip_windows window series1 series2 in
    let* vs := rmap (hoeffd_win srt window) ws in
    Ok (pad k fnan ++ vs).

  (** ** Distance correlation *)

  (** correlation.rs:456-463: entry [(i, j)] of the symmetric distance matrix:
      computed for [i <= j] and mirrored. *)
  Definition dist (x : list F) (i j : nat) : F :=
    fabs (at_ x (Nat.min i j) - at_ x (Nat.max i j)).

  (** correlation.rs:466-469: row means. *)
  Definition row_mean (x : list F) (i : nat) : F :=
    fsum (map (dist x i) (seq 0 (length x))) / fofnat (length x).

  (** correlation.rs:455-461, 472-475: the mean of all entries, computed as twice
      the sum of the upper triangle minus the diagonal. *)
  Definition matrix_mean (x : list F) : F :=
    let n := length x in
    let upper := flat_map (fun i => map (fun j => (i, j)) (seq i (n - i))) (seq 0 n) in
    let twice := fold_left (fun acc '(i, j) => acc + dist x i j * #2) upper #0 in
    let diag := fold_left (fun acc i => acc + dist x i i) (seq 0 n) #0 in
    (twice - diag) / fofnat (n * n).

  (** correlation.rs:476-483: entry [(i, j)] of the double-centred matrix,
      computed for [i <= j] and mirrored. *)
  Definition centred (x : list F) (rm : list F) (mm : F) (i j : nat) : F :=
    let a := Nat.min i j in
    let b := Nat.max i j in
    dist x a b + (- at_ rm a - at_ rm b + mm).

  (** correlation.rs:450-485 [centred_matrix]: the flattened [n*n] matrix.  The
      in-place updates write each upper entry and its mirror exactly once, after
      the means have been computed. *)
  Definition centred_matrix (x : list F) : list F :=
    let n := length x in
    let rm := map (row_mean x) (seq 0 n) in
    let mm := matrix_mean x in
    flat_map (fun i => map (fun j => centred x rm mm i j) (seq 0 n)) (seq 0 n).

  (** correlation.rs:491-507: closure of [dcor]. *)
  Definition dcor_win (window : nat) (p : list F * list F) : F :=
    let cx := centred_matrix (fst p) in
    let cy := centred_matrix (snd p) in
    let n2 := fofnat (window * window) in
    let dcov := fsqrt (fsum (map (fun '(a, b) => a * b) (combine cx cy)) / n2) in
    let dvar_x := fsqrt (fsum (map (fun a => a * a) cx) / n2) in
    let dvar_y := fsqrt (fsum (map (fun a => a * a) cy) / n2) in
    dcov / fsqrt (dvar_x * dvar_y).

  (** correlation.rs:445-509 [dcor].  The allocation of the [n*n] matrix is
      assumed to succeed. *)
  Definition dcor (series1 series2 : list F) (window : nat) : result (list F) :=
    let* k := usub window 1 in
    let* ws := zip_windows window series1 series2 in
    Ok (pad k fnan ++ map (dcor_win window) ws).

  (** ** Maximal information coefficient *)

  Definition pair_eqb (a b : N * N) : bool :=
    N.eqb (fst a) (fst b) && N.eqb (snd a) (snd b).

  (** Number of occurrences. *)
  Definition countb {A} (eqb : A -> A -> bool) (x : A) (l : list A) : nat :=
    length (filter (eqb x) l).

  (** Distinct elements, last occurrence kept. *)
  Fixpoint distinct {A} (eqb : A -> A -> bool) (l : list A) : list A :=
    match l with
    | [] => []
    | a :: l' => if existsb (eqb a) l' then distinct eqb l' else a :: distinct eqb l'
    end.

  (** The iteration order of the [HashMap] of joint counts is unspecified: [ord]
      is the order in which this run visits the keys. *)
  Definition hash_order := list (N * N) -> list (N * N).

  (** correlation.rs:542-560 [mutual_info] *)
  Definition mutual_info (ord : hash_order) (x y : list N) : F :=
    let n := fofnat (length x) in
    let pairs := combine x y in
    fold_left (fun acc '(xi, yi) =>
                 let p_xy := fofnat (countb pair_eqb (xi, yi) pairs) / n in
                 let p_x := fofnat (countb N.eqb xi (map fst pairs)) / n in
                 let p_y := fofnat (countb N.eqb yi (map snd pairs)) / n in
                 acc + p_xy * flog2 (p_xy / (p_x * p_y)))
              (ord (distinct pair_eqb pairs)) #0.

  (** correlation.rs:562-576 [bin]; [bins >= 2] at every call. *)
  Definition bin (x : list F) (bins : nat) : list N :=
    let '(mn, mx) :=
      fold_left (fun '(mn, mx) v => (fmin mn v, fmax mx v)) x (fmaxval, fminval) in
    let bin_width := (mx - mn) / fofnat bins in
    map (fun v => N.min (ftoN (ffloor ((v - mn) / bin_width))) (N.of_nat (bins - 1))) x.

  (** correlation.rs:578: number of grid cells allowed. *)
  Definition mic_max_bins (window : nat) : nat :=
    N.to_nat (ftoN (fceil (fpow (fofnat window) (flit 6 10)))).

  (** correlation.rs:585-597: closure of [mic]: grids [i x j] with
      [i in 2..=max_bins/2], [j >= 2], [i * j <= max_bins]. *)
  Definition mic_win (ord : hash_order) (max_bins : nat) (p : list F * list F) : F :=
    fold_left (fun max_mi '(i, j) =>
                 let mi := mutual_info ord (bin (fst p) i) (bin (snd p) j) in
                 fmax (mi / flog2 (fofnat (Nat.min i j))) max_mi)
              (flat_map (fun i => map (fun j => (i, j)) (seq 2 (max_bins / i - 1)))
                        (seq 2 (max_bins / 2 - 1)))
              fminval.

  (** correlation.rs:537-600 [mic] *)
  Definition mic (ord : hash_order) (series1 series2 : list F) (window : nat)
    : result (list F) :=
    let* k := usub window 1 in
    let* ws := zip_windows window series1 series2 in
    Ok (pad k fnan ++ map (mic_win ord (mic_max_bins window)) ws).
End Correlation.
