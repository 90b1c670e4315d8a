{"id": "C01", "title": "Output is aligned with input (length)", "statement": "Collecting any windowed indicator on a series that is long enough for its parameters yields exactly one output per input bar; for a series shorter than the warm-up the output of the sliding-window functions is the warm-up prefix alone (so it is then longer than the input).", "quantifier": "all series lengths, all windows, all f64 contents", "why_tests_cant": "the length is a function of two unbounded integers (series length and window)", "anchors": ["src/smooth.rs:sma,ewma,wma,wilder,lrf,kama,...", "src/statistic/distribution.rs:variance,std_dev,...", "src/volatility.rs:atr,donchian,...", "src/trend.rs", "src/momentum.rs", "src/volume.rs", "src/correlation.rs"]}
{"id": "C02", "title": "Warm-up prefix is NaN and has the documented length", "statement": "The first window-1 (or the function's specific warm-up count) outputs are NaN whatever the data, and the first output after it is the one computed from the first full window.", "quantifier": "all series, all windows", "why_tests_cant": "universal over data and window sizes", "anchors": ["src/smooth.rs", "src/statistic/distribution.rs", "src/correlation.rs", "src/momentum.rs", "src/trend.rs", "src/volatility.rs", "src/volume.rs"]}
{"id": "C03", "title": "No look-ahead: indicators are causal", "statement": "For each causal indicator, appending bars to the input never changes any value already output: the output on a prefix of the series is a prefix of the output on the whole series.", "quantifier": "all series, all continuations of that series, all parameters", "why_tests_cant": "quantifies over every history and every possible future", "anchors": ["src/smooth.rs", "src/statistic/distribution.rs:variance,...", "src/correlation.rs", "src/momentum.rs", "src/trend.rs", "src/volatility.rs", "src/volume.rs"]}
{"id": "C04", "title": "Indicators that repaint", "statement": "zigzag, ichimoku's lagging line and approx_entropy/sample_entropy with the default tolerance do use later bars: there are series whose already-printed output changes when bars are appended. (A user relying on C03 for them is wrong.)", "quantifier": "existence of a series and a continuation", "why_tests_cant": "negation of a universal; tests on one dataset cannot tell which functions are causal", "anchors": ["src/trend.rs:zigzag,ichimoku", "src/statistic/distribution.rs:approx_entropy,sample_entropy"]}
{"id": "C05", "title": "Exact panic domain", "statement": "Each function panics on exactly the characterised set of (data, parameter) combinations (window 0, series shorter than the seed of a recursive average, index underflow, integer overflow, ...), and on no other input including NaN, infinities and signed zeros.", "quantifier": "all inputs including non-finite values and all parameter values", "why_tests_cant": "the set of crashing inputs is infinite and data-independent only by proof", "anchors": ["src/smooth.rs", "src/statistic/distribution.rs", "src/statistic/regression.rs", "src/correlation.rs", "src/momentum.rs", "src/trend.rs", "src/volatility.rs", "src/volume.rs"]}
{"id": "C06", "title": "Simple moving average is the mean of the last window values", "statement": "Output i of sma is the left-to-right sum of bars i-window+1..i divided by window, and depends on no other bar.", "quantifier": "all series, windows, positions", "why_tests_cant": "for every i, window and content", "anchors": ["src/smooth.rs:sma"]}
{"id": "C07", "title": "Averages with non-negative unit weights stay inside the range of their window", "statement": "In exact arithmetic sma, wma, pwma, fwma, trima, ewma, wilder, kernel, alma output a value between the minimum and the maximum of the bars they average, and reproduce a constant series exactly.", "quantifier": "all finite series, all windows", "why_tests_cant": "universal over real data", "anchors": ["src/smooth.rs:sma,wma,pwma,fwma,trima,ewma,wilder,kernel,alma"]}
{"id": "C08", "title": "sma stays in the range of its window in f64", "statement": "In binary64 the mean printed by sma lies between the min and max of the window. (Expected false: rounding can push it outside; the true guarantee is a relative error bound.)", "quantifier": "all finite f64 windows", "why_tests_cant": "needs all rounding cases", "anchors": ["src/smooth.rs:sma"]}
{"id": "C09", "title": "Linear weights of wma", "statement": "wma weights bar k of the window (oldest first) with k/(1+...+window); the weights are positive, increasing and sum to 1; the integer denominator overflows exactly from window 2^32.", "quantifier": "all windows", "why_tests_cant": "unbounded window", "anchors": ["src/smooth.rs:wma"]}
{"id": "C10", "title": "Pascal weights of pwma", "statement": "pwma weights bar k of the window with C(window-1,k)/2^(window-1) for every window for which no integer overflow happens.", "quantifier": "all windows up to the overflow threshold, all data", "why_tests_cant": "identity between an in-place symmetric recurrence with integer division and binomials, for all windows", "anchors": ["src/smooth.rs:pwma"]}
{"id": "C11", "title": "Fibonacci weights of fwma", "statement": "fwma weights bar k of the window with F(k)/(F(1)+...+F(window)) (oldest first), window >= 2; window 1 panics.", "quantifier": "all windows, all data", "why_tests_cant": "unbounded recurrence", "anchors": ["src/smooth.rs:fwma"]}
{"id": "C12", "title": "Exponential recurrences", "statement": "ewma and wilder are seeded with the mean of the first bars and then follow x*alpha + prev*(1-alpha), resp. (prev*(n-1)+x)/n; in exact arithmetic the output is an explicit weighted sum of all past bars whose weights decay geometrically and sum to 1.", "quantifier": "all series, windows, positions", "why_tests_cant": "induction over unbounded history", "anchors": ["src/smooth.rs:ewma,wilder"]}
{"id": "C13", "title": "Higher order exponential averages", "statement": "dema, tema and t3 are the documented combinations of iterated ewma, they reproduce constants, and in exact arithmetic t3 with factor 0 is the triple ewma.", "quantifier": "all series, windows, factors", "why_tests_cant": "unbounded composition of scans", "anchors": ["src/smooth.rs:dema,tema,t3"]}
{"id": "C14", "title": "Linear regression forecast is the least squares endpoint", "statement": "lrf outputs the value at the newest bar of the line minimising the squared error over the window, hence reproduces every straight line exactly (exact arithmetic, window >= 2).", "quantifier": "all real series, all windows", "why_tests_cant": "optimality over all lines", "anchors": ["src/smooth.rs:lrf"]}
{"id": "C15", "title": "Compositional averages", "statement": "hull, trima, zlma are the documented compositions with the documented sub-windows, for odd and even windows.", "quantifier": "all series, windows", "why_tests_cant": "parity and floor(sqrt) cases for all windows", "anchors": ["src/smooth.rs:hull,trima,zlma"]}
{"id": "C16", "title": "A flat stretch does not destroy adaptive averages", "statement": "After a window of constant prices vidya, kama, frama, vma resume producing finite values once prices move again. (Expected false: 0/0 poisons the recursive state with NaN forever.)", "quantifier": "all series containing a flat window", "why_tests_cant": "permanence over unbounded futures", "anchors": ["src/smooth.rs:vidya,vma,kama,frama"]}
{"id": "C17", "title": "mama never panics", "statement": "mama returns for every f64 series and every fast/slow limits. (Expected false: the dynamic clamp panics when its bounds become NaN.)", "quantifier": "all f64 series", "why_tests_cant": "f64 corner cases", "anchors": ["src/smooth.rs:mama"]}
{"id": "C18", "title": "Gaussian averages weight the right bars", "statement": "kernel prints, at bar i, the mean of the last min(i+1, 255) values, the value k bars back weighted by exp(-k^2 / (2 sigma^2)). alma with offset mu in (0.5,1] weights recent bars most, as documented. (The latter is false: weights are applied newest first and the peak lands on older bars.)", "quantifier": "all windows, sigma, mu", "why_tests_cant": "universal over real parameters", "anchors": ["src/smooth.rs:alma", "src/smooth.rs:kernel"]}
{"id": "C19", "title": "ma dispatches to the named average", "statement": "ma(data, window, mode) produces exactly the output of the function its mode names.", "quantifier": "all modes, data, windows", "why_tests_cant": "finite in mode but universal in data", "anchors": ["src/smooth.rs:ma"]}
{"id": "C20", "title": "Variance and standard deviation", "statement": "variance is the population variance of the window: non-negative, zero exactly on constant windows, invariant under shifts and quadratic under scaling; std_dev is its square root; in f64 neither is ever negative.", "quantifier": "all series, windows", "why_tests_cant": "universal over data", "anchors": ["src/statistic/distribution.rs:variance,std_dev"]}
{"id": "C21", "title": "z-score, mean absolute deviation, coefficient of variation", "statement": "zscore is the standardised distance of the newest bar from its window mean and is invariant under positive affine maps; mad is the mean absolute deviation, non-negative and at most the standard deviation; cv is std/mean.", "quantifier": "all series, windows", "why_tests_cant": "universal over data", "anchors": ["src/statistic/distribution.rs:zscore,mad,cv"]}
{"id": "C22", "title": "Approximate and sample entropy do not overflow", "statement": "approx_entropy and sample_entropy return for every window. (Expected false: the 8-bit match counters overflow for long regular windows.)", "quantifier": "all series, windows", "why_tests_cant": "needs unbounded windows", "anchors": ["src/statistic/distribution.rs:approx_entropy,sample_entropy"]}
{"id": "C23", "title": "Skewness and kurtosis", "statement": "skew and kurtosis follow the documented sample formulas on their domain of windows, are invariant under shift, skew changes sign under reflection; they divide by zero below the minimal windows.", "quantifier": "all series, windows", "why_tests_cant": "universal over data", "anchors": ["src/statistic/distribution.rs:kurtosis,skew"]}
{"id": "C24", "title": "Order statistics", "statement": "The selection routine terminates, returns the k-th smallest element and permutes its buffer; median and quantile are the interpolated order statistics of the window, lie between its min and max, and never panic for any q (including NaN and out of range).", "quantifier": "all windows without NaN for the value; all inputs for absence of panic", "why_tests_cant": "loop invariants of in-place partitioning over all arrays", "anchors": ["src/statistic/distribution.rs:quickselect,median,quantile"]}
{"id": "C25", "title": "Ranking", "statement": "rank returns for each element the documented count formula: Min = 1 + number of strictly smaller, Max = number of smaller or equal, Average = mean of both, Dense = 1 + number of distinct smaller values, Ordinal a permutation of 1..n consistent with the order; independent of how the sort orders ties except Ordinal.", "quantifier": "all totally ordered inputs, all admissible sort outcomes", "why_tests_cant": "the sort is unstable: quantifies over all admissible permutations", "anchors": ["src/statistic/distribution.rs:argsort,rank,RankMode"]}
{"id": "C26", "title": "Forecast error metrics", "statement": "mse, rmse, mae are non-negative and zero exactly when the forecast is exact on every bar so far; rmse^2 = mse; mae <= rmse; mape, mase, emae follow their formulas.", "quantifier": "all pairs of series", "why_tests_cant": "universal over data", "anchors": ["src/statistic/regression.rs:mse,rmse,mae,mape,mase,emae"]}
{"id": "C27", "title": "smape stays within its documented range", "statement": "smape is symmetric in actual/estimate and lies within 0..100 as documented. (Expected false: it reaches 200.)", "quantifier": "all pairs of series", "why_tests_cant": "universal bound", "anchors": ["src/statistic/regression.rs:smape"]}
{"id": "C28", "title": "mda counts correct directions", "statement": "mda is the fraction of bars whose direction was predicted correctly and lies in [0,1] resp. [0,100]; an unchanged value is treated as up.", "quantifier": "all pairs of series", "why_tests_cant": "universal bound", "anchors": ["src/statistic/regression.rs:mda"]}
{"id": "C29", "title": "Pearson correlation is bounded and symmetric", "statement": "pcc lies in [-1,1] in exact arithmetic, is symmetric in its arguments bit for bit in f64, is invariant under positive affine transforms, and equals 1 on increasing affine pairs; rsq is its square and lies in [0,1].", "quantifier": "all pairs of series", "why_tests_cant": "Cauchy-Schwarz over all data", "anchors": ["src/correlation.rs:pcc,rsq"]}
{"id": "C30", "title": "beta, perf and rsc", "statement": "beta is covariance over market variance (1 against itself), perf and rsc follow their ratio formulas.", "quantifier": "all series", "why_tests_cant": "universal over data", "anchors": ["src/correlation.rs:beta,perf,rsc"]}
{"id": "C31", "title": "Rank correlations", "statement": "srcc and krcc are the documented rank correlations: symmetric in their arguments, in [-1,1], 1 on identical strictly monotone data. (krcc expected false under ties: ties in y only are counted as concordant.)", "quantifier": "all pairs of series including ties", "why_tests_cant": "combinatorial over all tie patterns", "anchors": ["src/correlation.rs:srcc,krcc"]}
{"id": "C32", "title": "Hoeffding's D does not overflow", "statement": "hoeffd follows the documented formula from window 5 on and never panics. (Expected false for large windows: integer product overflow; window 4 divides by zero.)", "quantifier": "all windows", "why_tests_cant": "threshold in the thousands", "anchors": ["src/correlation.rs:hoeffd"]}
{"id": "C33", "title": "Distance correlation", "statement": "dcor is symmetric and (exact arithmetic) lies in [0,1].", "quantifier": "all pairs of series", "why_tests_cant": "universal inequality", "anchors": ["src/correlation.rs:dcor"]}
{"id": "C34", "title": "Maximal information coefficient", "statement": "mic is a number in [0,1] for every window. (Expected false: for small windows it returns f64::MIN.)", "quantifier": "all windows", "why_tests_cant": "universal in window", "anchors": ["src/correlation.rs:mic"]}
{"id": "C35", "title": "On-balance volume", "statement": "obv adds the volume on a rise, subtracts it on a fall and leaves the total unchanged on an unchanged close. (Expected false on unchanged closes.) In f64 obv of integer volumes is exact while totals stay below 2^53.", "quantifier": "all price/volume series", "why_tests_cant": "history accumulates without bound", "anchors": ["src/volume.rs:obv"]}
{"id": "C36", "title": "Positive / negative volume index", "statement": "pvi changes only on bars where volume rises, nvi only where it falls; on the other bars the previous value is repeated.", "quantifier": "all price/volume series", "why_tests_cant": "state machine over unbounded history", "anchors": ["src/volume.rs:pvi,nvi"]}
{"id": "C37", "title": "Volume-weighted average price", "statement": "vwap is sum(price*volume)/sum(volume) since the last reset at or before the bar, for strictly increasing reset indices; it lies within the range of typical prices since the reset for positive volumes.", "quantifier": "all series and reset lists", "why_tests_cant": "segments of arbitrary number and length", "anchors": ["src/volume.rs:vwap"]}
{"id": "C38", "title": "Volume-weighted moving average", "statement": "vwma is sum(price*volume)/sum(volume) over the window and lies between the window's min and max for non-negative volumes not all zero.", "quantifier": "all series, windows", "why_tests_cant": "universal over data", "anchors": ["src/volume.rs:vwma"]}
{"id": "C39", "title": "Money-flow oscillators are bounded", "statement": "mfi lies in [0,100]; cmf and twiggs lie in [-1,1] when low <= close <= high and volumes are non-negative.", "quantifier": "all consistent OHLCV series", "why_tests_cant": "universal bound", "anchors": ["src/volume.rs:mfi,cmf,twiggs"]}
{"id": "C40", "title": "Cumulative volume indicators", "statement": "ad, vpt, tvi, elder_force, ease, bw_mfi, vforce, kvo follow their recurrences: output i is a function of bars <= i and of the previous output only as documented.", "quantifier": "all series", "why_tests_cant": "unbounded history", "anchors": ["src/volume.rs:ad,vpt,tvi,elder_force,ease,bw_mfi,vforce,kvo"]}
{"id": "C41", "title": "True range and ATR", "statement": "tr is max(high,prev close)-min(low,prev close); it is >= high-low >= 0 for consistent bars, in f64 too; atr is Wilder's average of it and is non-negative.", "quantifier": "all consistent OHLC series, windows", "why_tests_cant": "universal over data and rounding", "anchors": ["src/volatility.rs:tr,atr"]}
{"id": "C42", "title": "Bands are ordered", "statement": "For bbands, keltner, starc, fbands, donchian: lower <= middle <= upper on every non-warm-up bar (non-negative multiplier), in f64 too.", "quantifier": "all consistent series, windows, multipliers", "why_tests_cant": "universal over data and rounding", "anchors": ["src/volatility.rs:bbands,keltner,starc,fbands,donchian"]}
{"id": "C43", "title": "Donchian channel is the rolling extreme", "statement": "donchian upper/lower are the max/min of the window's highs/lows and are attained; middle is their average.", "quantifier": "all series, windows", "why_tests_cant": "universal over data", "anchors": ["src/volatility.rs:donchian"]}
{"id": "C44", "title": "Heikin-Ashi candles are consistent", "statement": "Each heikin_ashi candle has low <= open,close <= high and open is the mean of the previous candle's open and close.", "quantifier": "all consistent OHLC series", "why_tests_cant": "unbounded history", "anchors": ["src/volatility.rs:heikin_ashi"]}
{"id": "C45", "title": "Typical price and weighted close", "statement": "typical and wcp lie within [low,high] (exact arithmetic) and follow their formulas.", "quantifier": "all bars", "why_tests_cant": "universal", "anchors": ["src/volatility.rs:typical,wcp"]}
{"id": "C46", "title": "Volatility estimators", "statement": "hv, cc_hv, gkyz_hv, chop, vhf, mass, cvi, relative_vol, inertia, gri follow their documented window formulas and are non-negative / bounded where documented.", "quantifier": "all series, windows", "why_tests_cant": "universal over data", "anchors": ["src/volatility.rs:hv,cc_hv,gkyz_hv,chop,vhf,mass,cvi,relative_vol,inertia,gri"]}
{"id": "C47", "title": "RSI is bounded", "statement": "rsi lies in [0,100] in exact arithmetic; in f64 it can exceed 100 only by rounding. It is NaN while no movement has happened.", "quantifier": "all series, windows", "why_tests_cant": "universal bound with rounding", "anchors": ["src/momentum.rs:rsi"]}
{"id": "C48", "title": "Bounded oscillators", "statement": "wpr in [-100,0], stochastic in [0,100], cmo in [-100,100], ultimate in [0,100], tsi in [-100,100], tii in [0,100], psych in [0,100], bal_power in [-1,1] for consistent bars, aroon in [0,100].", "quantifier": "all consistent series, windows", "why_tests_cant": "universal bounds", "anchors": ["src/momentum.rs:wpr,stochastic,cmo,ultimate,tsi,tii,psych,bal_power", "src/trend.rs:aroon"]}
{"id": "C49", "title": "cfo stays within its documented range", "statement": "cfo lies in [-100,100] as documented. (Expected false.)", "quantifier": "all series", "why_tests_cant": "universal bound", "anchors": ["src/momentum.rs:cfo"]}
{"id": "C50", "title": "MACD family identities", "statement": "apo equals macd with the same windows; swapping short and long negates macd exactly in f64; ppo is the relative version.", "quantifier": "all series, windows", "why_tests_cant": "bit-exact identity for all inputs", "anchors": ["src/momentum.rs:macd,apo,ppo"]}
{"id": "C51", "title": "Rate-of-change family", "statement": "roc, derivative, cog, disparity, qstick, trix, pmo, coppock, kst, special_k, elder_ray, tsi ... follow their documented formulas at every bar.", "quantifier": "all series, windows", "why_tests_cant": "universal over data", "anchors": ["src/momentum.rs:roc,derivative,cog,disparity,qstick,trix,pmo,coppock,kst,special_k,elder_ray,tsi"]}
{"id": "C52", "title": "Accumulative swing index is the running sum of the swing index", "statement": "asi output i equals the sum of the si outputs up to i, bit for bit.", "quantifier": "all OHLC series, limits", "why_tests_cant": "unbounded history", "anchors": ["src/trend.rs:asi", "src/momentum.rs:si"]}
{"id": "C53", "title": "Directional movement", "statement": "adx's +DI and -DI are non-negative and its ADX is in [0,100]; vortex lines are non-negative.", "quantifier": "all consistent series", "why_tests_cant": "universal bound through chained recurrences", "anchors": ["src/trend.rs:adx,vortex"]}
{"id": "C54", "title": "Parabolic SAR stays on the right side", "statement": "psar's state machine: the SAR printed while long never exceeds the last two lows, while short never below the last two highs; the acceleration factor stays within [start, max].", "quantifier": "all series", "why_tests_cant": "state machine over unbounded history", "anchors": ["src/trend.rs:psar"]}
{"id": "C55", "title": "Supertrend and ATR stops ratchet", "statement": "While the trend direction is unchanged, supertrend's and atr_stop's stop level never moves against the position.", "quantifier": "all series", "why_tests_cant": "state machine over unbounded history", "anchors": ["src/trend.rs:supertrend,atr_stop"]}
{"id": "C56", "title": "Aroon uses the most recent extreme", "statement": "aroon's up/down lines count bars since the latest maximum/minimum of the window and lie in [0,100]; oscillator is their difference.", "quantifier": "all series, windows", "why_tests_cant": "ties at any position", "anchors": ["src/trend.rs:aroon"]}
{"id": "C57", "title": "ZigZag marks actual pivots", "statement": "Every non-NaN output of zigzag is the high or the low of that bar, pivots alternate, and both ends are marked.", "quantifier": "all series, thresholds", "why_tests_cant": "state machine over unbounded history", "anchors": ["src/trend.rs:zigzag"]}
{"id": "C58", "title": "Decay never rises above its rule", "statement": "decay outputs max(max(previous - 1/window, x), 0) at every bar, so it never falls below the data, never falls below zero, and falls by at most 1/window per bar.", "quantifier": "all series, windows", "why_tests_cant": "unbounded recurrence", "anchors": ["src/trend.rs:decay"]}
{"id": "C59", "title": "Channel stops and lines", "statement": "chandelier, cks, ichimoku, alligator, shinohara, rwi, dpo, ulcer, linreg, hurst follow their documented window formulas.", "quantifier": "all series, windows", "why_tests_cant": "universal over data", "anchors": ["src/trend.rs:chandelier,cks,ichimoku,alligator,shinohara,rwi,dpo,ulcer,linreg,hurst"]}
{"id": "C60", "title": "Hash-map order does not influence mic", "statement": "mic's result does not depend on the iteration order of its histograms. (Holds in exact arithmetic; f64 sums may differ in the last bits.)", "quantifier": "all iteration orders", "why_tests_cant": "quantifies over schedules of the hash map", "anchors": ["src/correlation.rs:mic"]}
{"id": "C61", "title": "NaN containment", "statement": "A NaN (or infinite) bar affects only the window-length outputs that see it for finite-window averages, and every later output for recursive ones.", "quantifier": "all series, positions of the NaN", "why_tests_cant": "universal over data and positions", "anchors": ["src/smooth.rs", "src/statistic/distribution.rs", "src/correlation.rs"]}
{"id": "C62", "title": "A bar with high = low does not destroy cumulative volume indicators", "statement": "A single bar whose high equals its low (no range) leaves the later values of ad finite. (Expected false: the bar divides 0 by 0 and the running total stays NaN for good.)", "quantifier": "every finite price and volume series, every position of the flat bar", "why_tests_cant": "the damage persists for an unbounded number of later bars, whatever they contain", "anchors": ["src/volume.rs: ad"]}
{"id": "C63", "title": "Locality of the sliding-window functions", "statement": "For each function computed over a sliding window, the value printed for a bar depends on the last w bars only (w being the function's reach): two histories, of whatever lengths, that end with the same w bars print the same value there, bit for bit.", "quantifier": "all pairs of histories of any lengths that agree on their last w bars, all windows, all f64 contents including NaN and infinities", "why_tests_cant": "quantifies over two arbitrary unbounded histories", "anchors": ["src/smooth.rs:sma,wma,pwma,fwma,lrf,hull,trima,alma,kernel", "src/statistic/distribution.rs", "src/correlation.rs", "src/volume.rs:cmf,mfi,vwma,ease,bw_mfi", "src/volatility.rs:gri,donchian,tr,typical,hv,chop,vhf,cc_hv,gkyz_hv,wcp", "src/trend.rs:shinohara,vortex,rwi,aroon,ulcer,dpo", "src/momentum.rs:roc,cog,psych,cci,wpr,ultimate,tii,stochastic,relative_vigor,coppock,cfo,si"]}
{"id": "C64", "title": "Adaptive averages compute their published recurrences", "statement": "kama, vma, vidya and frama print, at every bar past their warm-up, y[i] = y[i-1] + a[i]*(price[i] - y[i-1]) started from y = 0, where a[i] is the published smoothing constant of that bar (efficiency ratio, Chande momentum, ratio of standard deviations, fractal dimension), whenever the constant is defined.", "quantifier": "all series of reals, all windows, all bars", "why_tests_cant": "a recurrence over unbounded histories", "anchors": ["src/smooth.rs:kama,vma,vidya,frama"]}
{"id": "C65", "title": "Adaptive averages do not leave the range of the data seeded with 0", "statement": "The smoothing constants of kama, vma, frama and mama lie in [0,1], so the printed averages stay between the smallest and largest of 0 and the prices seen.", "quantifier": "all real series, all windows, all bars", "why_tests_cant": "universal bound over data", "anchors": ["src/smooth.rs:kama,vma,frama,mama"]}
{"id": "C66", "title": "mdma stays within the range of the prices", "statement": "The McGinley dynamic average starts at the first price, keeps constant series constant and never leaves the range of the prices seen. (Expected false for the range.)", "quantifier": "all positive price series, windows", "why_tests_cant": "universal bound over histories", "anchors": ["src/smooth.rs:mdma"]}
{"id": "C67", "title": "Holt-Winters and super-smoother recurrences", "statement": "hwma, ssf (two and three poles) satisfy their published recurrences at every bar, and reproduce a constant series exactly.", "quantifier": "all real series, windows, coefficients", "why_tests_cant": "recurrence over unbounded histories", "anchors": ["src/smooth.rs:hwma,ssf"]}
{"id": "C68", "title": "mama honours its limits", "statement": "mama's two lines follow the published MESA recurrence of the prices, and the gain applied to each bar stays between the slow and the fast limit, so that changing the slow limit changes how far the average can lag.", "quantifier": "every finite price series, every fast and slow limit", "why_tests_cant": "the gain is driven by a recursive phase estimate; only an invariant over all histories shows which gains are reachable", "anchors": ["src/smooth.rs: mama"]}
{"id": "C69", "title": "Approximate and sample entropy compute the published quantities", "statement": "Whenever it returns, approx_entropy is |phi(m+1) - phi(m)| with Pincus' phi, and sample_entropy is minus the logarithm of the ratio of the matching pairs of runs, for each window, with the default tolerance a fifth of the standard deviation of the whole series.", "quantifier": "every finite series, window, run length and tolerance", "why_tests_cant": "the count of matching runs is a property of all pairs of positions of every window; fixed vectors check a handful", "anchors": ["src/statistic/distribution.rs: approx_entropy, sample_entropy"]}
{"id": "C70", "title": "Rounding errors of the recursive averages and the bands around them do not accumulate", "statement": "For finite prices of magnitude at most M, the values that wilder, ewma, macd, dema, tema, t3, zlma, qstick, elder_ray, keltner, dpo (simple average) and atr print differ from the exact value by at most a small multiple of window * 2^-53 * M at every bar, however long the series is; the bands of bbands by at most a small multiple of sqrt(window * 2^-53) * M.", "quantifier": "every binary64 series of any length with magnitudes at most M (2^-900 <= M <= 2^890), every window up to 2^40, every bar past the warm-up", "why_tests_cant": "the error of a recurrence could grow with every bar; a bound for series of every length needs an invariant, and a test has no exact value to compare with", "anchors": ["src/smooth.rs: wilder, ewma, dema, tema, t3, zlma", "src/momentum.rs: macd, qstick, elder_ray", "src/trend.rs: dpo", "src/volatility.rs: atr, _true_range, keltner, bbands"]}
{"id": "C71", "title": "The unit of prices and volumes does not matter", "statement": "Quoting all prices in another currency unit (every price times c > 0) and all volumes in another lot size (every volume times v > 0) changes a price-like result only by the factor c, a volume-like one by v, a product by c*v, and leaves every oscillator, ratio, correlation, rank and trend flag exactly as it was; a call panics in one unit if and only if it does in the other. Exceptions, each shown by a concrete series: fisher and rainbow compare the price range with the absolute amount 0.000001, and decay sinks by the absolute amount 1/window per bar.", "quantifier": "every exact series, NaN and infinite values included, every length, every window and mode, every c > 0 and v > 0", "why_tests_cant": "it compares two runs for every series and every factor; a vector test fixes both, and a stray absolute constant shows only on some inputs", "anchors": ["src/smooth.rs", "src/trend.rs", "src/momentum.rs", "src/volatility.rs", "src/volume.rs", "src/correlation.rs", "src/statistic/distribution.rs", "src/statistic/regression.rs"]}
{"id": "C72", "title": "The element type does not change the answer", "statement": "median, quantile, rank, srcc and hoeffd, which compare the caller's elements in their own type before converting them, return for a series of any integer type whose values are at most 2^53 in absolute value, and for any series of f32 (NaN and infinities included), exactly what they return for the same numbers given as f64. The bound is sharp: 2^53 and 2^53+1 get ranks 1 and 2 as i64 but share rank 1 as f64.", "quantifier": "every series of such integers or of f32, every length, window, quantile and rank mode; every sort whose result depends only on the comparisons", "why_tests_cant": "tests instantiate f64 (and a few integer literals); agreement must hold for every series and the bound shows only at 2^53", "anchors": ["src/statistic/distribution.rs:median", "src/statistic/distribution.rs:quantile", "src/statistic/distribution.rs:quickselect", "src/statistic/distribution.rs:rank", "src/correlation.rs:srcc", "src/correlation.rs:hoeffd"]}
{"id": "C73", "title": "Rounding errors over a window are small", "statement": "For finite prices of magnitude at most M, sma, wma, pwma, fwma and trima print a value that differs from the exact weighted mean of the window by at most a small multiple of window * 2^-53 * M; variance differs from the exact variance by at most 64 * window * 2^-53 * M^2, and std_dev from its root by at most 16 * sqrt(window * 2^-53) * M (the square root is real: cancellation on a nearly flat window far from 0).", "quantifier": "every binary64 series of any length with magnitudes at most M (M between 2^-900 and 2^890; M^2 in that range too for variance and std_dev), every window (up to 2^40; w(w+1) <= 2^53 for wma, below 64 for pwma, up to 76 for fwma), every bar past the warm-up", "why_tests_cant": "a test has no exact value to compare with and sees a few windows; the bound is over all series, and cancellation shows only on special ones", "anchors": ["src/smooth.rs: sma, wma, pwma, fwma, trima", "src/statistic/distribution.rs: variance, std_dev"]}
{"id": "C74", "title": "Higher prices never give a lower average", "statement": "If one series is bar by bar not above another, then sma, wma, pwma, fwma, trima, wilder and ewma of the first are bar by bar not above those of the second, and so are the typical price and its average when all of high, low and close are; rounding never reverses the order.", "quantifier": "every pair of binary64 series of any length, infinities, NaN and overflow included (a NaN item is neither above nor below), every window (below 2^53 for ewma)", "why_tests_cant": "it compares two runs on every pair of series at the last bit; a test compares a few values with a tolerance that hides a reversed last bit", "anchors": ["src/smooth.rs: sma, wma, pwma, fwma, trima, wilder, ewma", "src/volatility.rs: typical"]}
{"id": "C75", "title": "Adding the same amount to every price", "statement": "When the same amount t is added to every price, every price-like result (moving averages, bands, channels, stops, smoothed bars, quantiles) moves by exactly t, and every result built from price differences (ranges, oscillators, deviations, entropies, trend indices, regression errors, correlations, ranks, money flow) stays exactly as it was; for correlations the two series may move by different amounts; a call panics before the move if and only if it panics after. fisher and decay do so as long as the prices stay between 0 and f64::MAX. kama, atr_stop and cks do not: they start from the fixed level 0, as a concrete series shows for each.", "quantifier": "every exact series, NaN and infinite values included, every length, window and mode (except the modes vma and vidya), every real t", "why_tests_cant": "it compares two runs for every series and every amount; a fixed vector hides a stray absolute level, which shows only when the whole market is moved", "anchors": ["src/smooth.rs", "src/statistic/distribution.rs", "src/statistic/regression.rs", "src/correlation.rs", "src/volatility.rs", "src/volume.rs", "src/trend.rs", "src/momentum.rs"]}
{"id": "C76", "title": "Prices turned upside down", "statement": "When every price is negated (a bar then has minus its low as its high and minus its high as its low; volumes stay), moving averages, oscillators around zero, accumulation lines and z-scores give the opposite value at every bar, up to the sign of a zero; measures of spread (variance, standard and mean absolute deviation, kurtosis, entropies, true range, mass, vhf, chop, regression errors) are exactly what they were; upper and lower bands change places and sign; the rising and falling lines of adx, vortex, rwi and aroon change places, adx itself staying the same; a correlation of which one series is negated changes its sign, and rsq and dcor stay; oscillators from 0 to 100 (rsi, tii, relative_vol, stochastic, ultimate, psych without unchanged closes) turn into their complement to 100, and wpr into its complement to -100; and a call panics for the one if and only if for the other. obv, tvi, supertrend, psar, atr_stop, decay and ad with alt do not mirror, as a concrete series shows for each.", "quantifier": "every series of binary64 values (NaN, infinities and overflow included) and every exact series, every length, window and mode; the complements to 100, heikin_ashi, twiggs and ease in exact arithmetic", "why_tests_cant": "it compares two runs for every series; an asymmetry (a comparison that is strict on one side only, a swapped high and low) shows only on ties or on falling markets that fixed vectors rarely contain", "anchors": ["src/smooth.rs", "src/statistic/distribution.rs", "src/statistic/regression.rs", "src/correlation.rs", "src/volatility.rs", "src/volume.rs", "src/trend.rs", "src/momentum.rs"]}
{"id": "C77", "title": "An iterator that is not drained", "statement": "The functions whose panics can happen while values are pulled (obv, vwap, mama, rainbow, skew, quantile, median, both entropies, srcc, krcc, hoeffd, hurst, emae, mase): a consumer who takes the first k values sees exactly the first k values of a call on the first k bars, and runs into a panic exactly if that call panics; later bars, later bad data and unreasonable lengths further on do not matter. The panic comes at a definite pull: obv with too few volumes yields the bars that have a volume and panics on the next; vwap with an empty list of resets returns and panics on the first pull; a run length beyond the window, a window of 1 for skew or under 4 for hoeffd, or a lookback beyond the warm-up of rainbow let the warm-up through and panic on the first computed value; emae panics on item 2^31-1. Only the default tolerance of the entropies looks at the whole series, at the call. Draining gives what every other property says.", "quantifier": "every arithmetic, every series, every argument and every number k of values pulled", "why_tests_cant": "the tests collect every iterator to its end; how far a consumer gets depends on the data, the arguments and the number of pulls", "anchors": ["src/volume.rs: obv, vwap", "src/smooth.rs: mama", "src/momentum.rs: rainbow", "src/trend.rs: hurst", "src/correlation.rs: srcc, krcc, hoeffd", "src/statistic/distribution.rs: skew, quantile, median, approx_entropy, sample_entropy", "src/statistic/regression.rs: emae, mase"]}
{"id": "C78", "title": "The average of a sum is the sum of the averages", "statement": "For two series of the same length, running a linear indicator on their bar-by-bar sum gives, at every bar, the sum of its results on the two series, warm-up included, and panics exactly if it panics on each of them: all moving averages whose weights do not depend on the data (sma, ewma, wma, pwma, fwma, trima, wilder, dema, tema, hull, zlma, lrf, t3, hwma, ssf, kernel, alma, and the modes of ma other than vma and vidya), macd, apo, dpo, qstick, elder_ray and alligator; and, for two volume series over the same closes, obv and tvi. So the indicator of a portfolio is the sum of the indicators of its parts. kama and the mode vma are not of this kind, as two concrete series show for each.", "quantifier": "every two exact series of the same length, NaN and infinite values included, every length, window and option (a non-zero finite sigma for kernel and alma, a positive window for ssf)", "why_tests_cant": "it compares three runs for every pair of series; a stray constant, a clamped value or a dropped term shows only in the comparison", "anchors": ["src/smooth.rs", "src/momentum.rs: macd, apo, qstick, elder_ray", "src/trend.rs: dpo, alligator", "src/volume.rs: obv, tvi"]}
{"id": "C79", "title": "Functions that print the same quantity agree", "statement": "Where two functions of the library describe the same quantity, their results agree at every bar. Bit for bit, in every arithmetic: rmse is the root of mse and std_dev the root of variance; cv is std_dev over sma; zscore is the distance to sma in units of std_dev; cci the distance of the typical price to typical in units of 0.015 mad; the two first lines of kdj with a smoothing of 3 are stochastic; apo is macd; atr is the wilder average of tr after its first bar; asi adds up si; the conversion and base lines of ichimoku are the middle lines of donchian. In exact arithmetic: lrf is 3 wma - 2 sma; the outer lines of donchian are the quantiles 100 and 0 of the highs and lows; wpr is the raw %K of kdj minus 100; ppo is macd in per cent of the long average; vwma with equal volumes is sma; t3 with factor 0 is the third exponential average, tema - 3 (dema - ewma); trix is its change in per cent from bar to bar; pvi times nvi follows the close; tvi with a zero tick is obv on closes that never repeat.", "quantifier": "every series, every length, every window for which both functions are defined (zscore and cci: windows up to the length plus one)", "why_tests_cant": "each function is tested on its own against one fixture; that two formulas give the same number on every series is a theorem of algebra", "anchors": ["src/statistic/distribution.rs: variance, std_dev, cv, zscore, mad, quantile", "src/statistic/regression.rs: mse, rmse", "src/momentum.rs: cci, kdj, stochastic, wpr, macd, ppo, apo, trix, roc", "src/volatility.rs: atr, tr, donchian", "src/trend.rs: asi, ichimoku", "src/momentum.rs: si", "src/smooth.rs: lrf, wma, sma, vwma, t3, tema, dema, ewma, wilder", "src/volume.rs: pvi, nvi, tvi, obv"]}
{"id": "C80", "title": "A window of one bar leaves a series as it is", "statement": "With a window of 1, sma, wma, pwma, trima, hull, wilder, ewma, dema, tema, t3 (any factor) and zlma return exactly their input, from the first bar on. lrf is the exception: it prints NaN at every bar; fwma panics.", "quantifier": "every finite exact series of every length (non-empty for the exponential averages)", "why_tests_cant": "the boundary window is where off-by-one weights, divisors and warm-ups show, and it has to be right for every series", "anchors": ["src/smooth.rs: sma, wma, pwma, trima, hull, wilder, ewma, dema, tema, t3, zlma, lrf, fwma"]}
{"id": "C81", "title": "In f64, ratios of ranges, error measures and weighted prices keep nearly all their digits", "statement": "For inputs of a reasonable size (zero, or between 2^-200 and 2^200 in magnitude; volumes and averaged prices not negative; low <= close <= high where a range is taken) each value returned in f64 is finite and within K rounding units (2^-52 times the exact value) of what exact arithmetic gives for the same inputs, wherever that is a finite number, and the call panics exactly when it would with exact numbers. K does not depend on the prices, nor on how long ago the series started: sma w+1, vwma 2w+2, typical w+4, wcp 3, bw_mfi 3, tr 1, rsc 1, wpr 4, vhf w+3, cog 2w+2, vortex 2w+1, ulcer w+9, ultimate 2w+10 with the longest window, stochastic 8 and 12, the first two lines of kdj s+5 and 2s+6. The functions that are running totals over n bars by definition have K growing with n: vwap 2n+5, mse and mape n+4, rmse n+5, mae n+2, smape n+6, emae 2n+4.", "quantifier": "every such series of every length up to 2^48, every window from 1 to 2^48 (stochastic, kdj, wpr, ulcer: at most the length plus one; cog: positive prices; vwap: increasing session ends), every libm", "why_tests_cant": "a fixture compares a few printed digits of one series; that no series of allowed size makes the rounding errors pile up or cancel is a statement about all of them", "anchors": ["src/smooth.rs: sma, vwma", "src/volatility.rs: typical, tr, vhf", "src/volume.rs: bw_mfi, vwap", "src/momentum.rs: wpr, cog, stochastic, kdj, ultimate", "src/trend.rs: vortex, ulcer", "src/correlation.rs: rsc", "src/statistic/regression.rs: mse, rmse, mae, mape, smape, emae"]}
{"id": "C82", "title": "Which bounded indicators stay inside their bounds in f64, and by how much the others leave them", "statement": "In f64: mfi of non-negative prices and volumes lies in [0,100] (NaN when nothing flowed) and mda in [0,1], exactly. smape lies in [0,200] unless both numbers of a pair are below 2^-1021 in size. tii and relative_vol are NaN, in [0, 100+2^-46] or +infinity; tsi is NaN, in [-100-2^-46, 100+2^-46] or infinite; crsi of inputs below 2^950 is NaN or in [0, 100+2^-45]. Those margins are needed: ordinary short series make tsi and tii print more than 100. Other textbook bounds fail too: cmf and twiggs print more than 1 for a bar that closes at its high, srcc of a series with itself prints more than 1, smape of a subnormal pair is infinite, pcc and rsq of three prices near 10^8 are infinite, and cmo forgets two rising bars (NaN instead of 100) after a large earlier move.", "quantifier": "every series of every length (mda up to 2^53, smape up to 2^53/200 bars), every window (up to 2^53), every libm; for srcc every way the unstable sort may order items", "why_tests_cant": "a bound is a statement about all inputs; which ones break it by the last digit, and that none break it by more, cannot be read off sample outputs", "anchors": ["src/volume.rs: mfi, cmf, twiggs", "src/momentum.rs: tii, tsi, crsi, cmo", "src/volatility.rs: relative_vol", "src/statistic/regression.rs: mda, smape", "src/correlation.rs: pcc, rsq, srcc"]}
{"id": "C83", "title": "Kendall rank correlation in f64 rounds only twice", "statement": "On series of finite f64 numbers where bars tied in the second series are tied in the first, krcc with a window up to 8192 counts the pairs exactly. A window in which tau-b has no value (one series constant) prints NaN; any other prints a number in [-1,1] within 2^-52 of the exact tau-b of the two windows. The bars before the first full window are NaN.", "quantifier": "every pair of series of equal length and finite values, of any size of price, every window from 1 to 8192, every libm", "why_tests_cant": "differences of prices may overflow, underflow or round, and the counts are kept in floats; that none of this ever changes a count is a statement about all floats", "anchors": ["src/correlation.rs: krcc"]}
{"id": "C84", "title": "Which results can never be negative in f64, not even as a negative zero", "statement": "In f64, when no input is negative (sign bit clear, or NaN): sma, ewma, wma, pwma, fwma, trima, wilder, vwma, vwap, typical, wcp, perf, rsc, pvi, nvi and emae print no number with a sign, and neither do kernel and alma if exp returns none. For any inputs: mse, rmse, mae, mape, smape, mase, variance, std_dev, mad, rsq, cc_hv and ulcer, and hv with a non-negative factor. With high not below low: tr, mass, bw_mfi. cv of non-negative prices. gkyz_hv is never below zero. The averages that extrapolate have no such guarantee: dema, tema, hull, zlma, lrf, t3, hwma and mdma print negative numbers for positive prices after a crash.", "quantifier": "every series of every length including NaN and infinite entries, every window, every libm and either starting value of a sum", "why_tests_cant": "cancellation, overflow and signed zeros could produce a sign for some input; that none does is a statement about all floats", "anchors": ["src/smooth.rs", "src/statistic/regression.rs", "src/statistic/distribution.rs: variance, std_dev, mad, cv", "src/volatility.rs: tr, mass, hv, cc_hv, gkyz_hv, typical, wcp", "src/volume.rs: vwap, vwma, bw_mfi, pvi, nvi", "src/correlation.rs: rsq, rsc, perf", "src/trend.rs: ulcer"]}
{"id": "C85", "title": "Volume traded in two places: cumulative indicators add up, ratios mix", "statement": "In exact arithmetic, when the volume of every bar is the sum of two parts: obv, tvi, kvo (default mode), elder_force, vpt and ad (both modes), and kvo in its other mode, give for the whole volume the bar-by-bar sum of what they give for the parts, and panic for the same arguments. obv, tvi and kvo's default mode need nothing of the prices; the others need prices that are numbers, vpt non-zero closes, ad and kvo's other mode a close within the bar's range (a bar without range is allowed). The ratios do not add up (vwma of one bar refutes it); vwma, vwap, cmf, twiggs and mfi of the whole lie between the values of the parts, at every bar past the warm-up, wherever both parts traded.", "quantifier": "every price series, every two volume series of the same length (also negative, NaN or infinite volumes for the sums), every window, every mode, every list of vwap resets", "why_tests_cant": "the claim compares three runs over all splits of all volume series; a test compares one split", "anchors": ["src/volume.rs: obv, tvi, kvo, vforce, vforce_alt, elder_force, vpt, ad, vwma, vwap, cmf, twiggs, mfi"]}
{"id": "C86", "title": "A missing bar: who never recovers and who goes on", "statement": "When one bar of a series is missing (NaN): ewma, wilder (window other than 1), dema, tema, t3, zlma, hwma, mdma, ssf, kama, vidya, frama (from its first full window on) and vma (from bar 9 on), and what is built on them (macd, ppo, apo, disparity, trix, tsi, pmo, qstick, bal_power, elder_ray, keltner, stc, elder_force, kvo, and atr when both high and low are missing), the running totals (obv, vpt, ad in both modes, vwap without resets, tvi for a missing volume) and the running error measures (mse, rmse, mae, mape, mase, emae) print NaN at that bar and at every bar after it, however long the series. The others go on. donchian's bands are the extremes of the values that are there, and NaN only if none is. tr uses what is known of the bar. pvi and nvi repeat themselves on the missing bar and the next. rsi and psych count a change next to a missing price as no change. smape counts a missing pair as a perfect estimate. fbands passes over a missing neighbour, but sees no pivot when the oldest of its five bars is missing; aroon reports 0 while the oldest bar of its window is missing, whatever the others are.", "quantifier": "every series of every length, every position of the missing bar, every window and parameter; every libm; the other bars may be anything, NaN and infinities included", "why_tests_cant": "that no later value ever returns is a statement about unbounded continuations; which comparison wins against NaN depends on where in the window the gap lies", "anchors": ["src/smooth.rs", "src/momentum.rs: macd, ppo, apo, disparity, trix, tsi, pmo, qstick, bal_power, elder_ray, stc, rsi, psych", "src/volatility.rs: keltner, atr, tr, donchian, fbands", "src/volume.rs: obv, vpt, ad, vwap, tvi, elder_force, kvo, pvi, nvi", "src/trend.rs: aroon", "src/statistic/regression.rs: mse, rmse, mae, mape, mase, smape, emae"]}
{"id": "C87", "title": "How long the past is remembered", "statement": "Run an indicator on a series and again on the same series without its first p bars (a restart with a shorter history). For ewma, wilder, zlma, dema, tema, t3, macd, ppo, trix, rsi, tsi, pgo, relative_vol, adx with both directional lines, atr, keltner, chandelier, qstick, bal_power, elder_ray, elder_force, kvo, kama and the Heikin-Ashi candles the two outputs differ, k bars after the shorter run prints its first value, by at most a geometrically shrinking share of the range of the inputs: (1 - 2/(w+1))^k for averages of ewma type, (1 - 1/w)^k for wilder and atr, (1/2)^k for the Heikin-Ashi open, high and low (the close does not look back), (1 - (2/(long+1))^2)^k for kama, (3 + ka)(1-a)^k for dema and (7 + 4ka + a^2 k(k+1)/2)(1-a)^k for tema with a = 2/(w+1), (1 + 2v)^3 (1 + ka)^5 (1-a)^k for t3 with volume factor v; ppo and trix for positive prices, rsi, tsi and adx for prices that move on every bar, pgo for bars whose high is above their low, relative_vol for windows whose deviation is bounded away from zero; where one average is taken of another, as in tsi and adx, by (1 + ka) q^k with the slower of the two rates. For ewma and wilder the difference is exactly that share of the first difference, so it never vanishes unless it was zero from the start. In f64 the same bounds hold for ewma and wilder with a rounding term that does not grow with time. The running totals obv, vpt and ad never forget: the two runs differ for ever by exactly what the longer one had reached when the shorter one began; pvi and nvi for ever by a constant factor. supertrend need not forget either: after one fall and an unchanged price ever since, the two runs print opposite bands for ever. Nor need atr_stop, by the same kind of history, nor psar: on unchanging bars its stop turns on every bar, so a run that starts one bar later prints the high when the other prints the low, for ever.", "quantifier": "every series of every length, every number of left-out bars, every window; exact arithmetic, and every finite f64 series of bounded magnitude for the two averages", "why_tests_cant": "a decay rate is a statement about every later bar, every history left out and every window; a test sees one restart", "anchors": ["src/smooth.rs: ewma, wilder, zlma, dema, tema, kama", "src/momentum.rs: macd, qstick, bal_power, elder_ray", "src/volatility.rs: atr, heikin_ashi", "src/volume.rs: elder_force, kvo, obv, vpt, ad, pvi, nvi", "src/smooth.rs: t3", "src/momentum.rs: ppo, trix, rsi", "src/volatility.rs: keltner", "src/trend.rs: chandelier, supertrend"]}
{"id": "C88", "title": "Small changes of the prices", "statement": "Run the same function on two series of the same length that are nowhere further apart than e. Then, from the first printed value on, the outputs are nowhere further apart than a fixed multiple of e that depends on neither the series nor its length (for chandelier, starc and bbands on the multiplier): e for sma, wma, pwma, fwma, trima, ewma, wilder, vwma (same positive volumes), typical, std_dev, median, quantile, the Donchian channel and the middle lines of bbands and keltner; 2e for macd, qstick, elder_ray, dpo, mad and atr; 3e for hull, dema and zlma; 7e for tema; (1+2v)^3 e for t3 with factor v; 5e for the keltner edges; (1+|dev|)e for the bbands edges; (1+2|mult|)e for chandelier and starc. For rsi, cmo, psych, wpr, aroon and obv no bound exists: for every e > 0 there are two series nowhere further apart than e whose outputs are, at every printed bar, the two opposite ends of the scale (for obv: the sum of the volumes and its negation).", "quantifier": "every pair of finite series of equal length, every distance e, every window within the documented bounds, every bar (exact arithmetic)", "why_tests_cant": "a test compares one pair of series; the bound must hold for every pair, and the absence of a bound for every e however small", "anchors": ["src/smooth.rs: sma, wma, pwma, fwma, trima, hull, ewma, wilder, dema, tema, t3, zlma", "src/volume.rs: vwma, obv", "src/volatility.rs: atr, keltner, donchian, bbands, starc, typical", "src/momentum.rs: macd, qstick, elder_ray, rsi, cmo, psych, wpr", "src/trend.rs: dpo, chandelier, aroon", "src/statistic/distribution.rs: std_dev, mad, median, quantile"]}
{"id": "C89", "title": "The lag of the averages on a straight line of prices", "statement": "When the price moves by the same amount d at every bar, each average prints, from its first value on and at every later bar, the price the line had a fixed number of bars ago, and that number depends on the window only: (w-1)/2 bars for sma, ewma, pwma and trima, (w-1)/3 for wma, (isqrt(w)-2)/3 for hull with an even window and (isqrt(w)-1)/3 with an odd one, none at all for lrf, dema and tema, 3(1-v)(w-1)/2 for t3 with factor v, none for zlma with an odd window and half a bar with an even one. wilder starts at a smaller lag and tends to w-1: after m further bars it is (w-1) - (w/2)(1-1/w)^(m+1). On the same line macd prints d(long-short)/2, dpo prints -d (odd window) or -3d/2 (even window), variance d^2(w^2-1)/12, std_dev its square root, and zscore of a rising line sqrt(3(w-1)/(w+1)); bbands with the default two deviations always contain the price; the Donchian channel of a rising line is the current price, the price (w-1)/2 bars ago and the price w-1 bars ago.", "quantifier": "every starting price, every amount d (positive for zscore, non-negative for donchian), every window within the documented bounds, every length, every bar (exact arithmetic)", "why_tests_cant": "a test fixes one slope, window and length; the lag must be the stated function of the window for all of them and must not drift with the bar", "anchors": ["src/smooth.rs: sma, ewma, wma, pwma, trima, hull, lrf, dema, tema, t3, zlma, wilder", "src/momentum.rs: macd", "src/trend.rs: dpo", "src/statistic/distribution.rs: variance, std_dev, zscore", "src/volatility.rs: bbands, donchian"]}
{"id": "C90", "title": "What a build without overflow checks returns", "statement": "cargo build --release does not check integer overflow. For pwma, approx_entropy, sample_entropy, hoeffd, kurtosis, skew, ewma and alma: whenever the checked build returns a result, the unchecked build returns the same result. Where the checked build panics on an overflow, the unchecked build returns, but not the documented number. pwma returns for every window but 0, and with a window of 128 it prints more than three times the price where the price is constant. The entropies use only the low byte of the number of matching runs: sample_entropy of 34 unchanged prices is below -2 (it should be about 0), approx_entropy is infinite on unchanged prices when the number of runs in the window is a multiple of 256 (it should be 0). hoeffd divides by the low 64 bits of w(w-1)(w-2)(w-3)(w-4), so D comes out multiplied by the quotient; with windows of 1 to 4 no value is a number. kurtosis and skew print NaN for windows of 1 and 2; kurtosis uses only the low 64 bits of (w+1)w(w-1), and with a window of 2642246 it prints less than -2.8 whatever the prices. With a window of 0, ewma yields NaN for 2^64 - 1 items and alma prints NaN for every bar.", "quantifier": "every series, window, run length, tolerance and sorting order; the agreement for every number system", "why_tests_cant": "cargo test builds with the checks on, so the unchecked arithmetic is never executed; agreement must hold for every input, and the wrong values appear only for particular window lengths", "anchors": ["src/smooth.rs: pwma, ewma, alma", "src/statistic/distribution.rs: approx_entropy, sample_entropy, kurtosis, skew", "src/correlation.rs: hoeffd"]}
{"id": "C91", "title": "The order of the bars inside a window", "statement": "A statistic of a window depends on which prices are in the window, not on their order. Wherever the last w bars of two series are the same up to order, sma, variance, std_dev, mad, cv, skew, kurtosis, median and quantile print the same value at that bar; so do pcc, srcc, hoeffd, dcor, mic and vwma when the pairs of values are moved together, and mse, rmse, mae, mape and smape when all the bars so far are. krcc is free of the order when bars tied in the second series are tied in the first as well. It fails otherwise: three bars print 4/sqrt 6 and, turned round, 2/sqrt 6. In binary64 even sma depends on the order of three prices.", "quantifier": "every pair of series and bar whose windows are rearrangements of each other, every window length, quantile, sorting and hashing order; exact arithmetic; the last failure is shown in binary64", "why_tests_cant": "a test fixes one series and so one order; the claim relates two runs on different series for every rearrangement", "anchors": ["src/smooth.rs: sma", "src/statistic/distribution.rs: variance, std_dev, mad, cv, skew, kurtosis, median, quantile", "src/correlation.rs: pcc, krcc, srcc, hoeffd, dcor, mic", "src/statistic/regression.rs: mse, rmse, mae, mape, smape", "src/volume.rs: vwma"]}
{"id": "C92", "title": "Prices on another scale", "statement": "Some functions only use which of two values is the higher one. Replace every value x by phi(x) for any strictly increasing phi (a logarithm, say): obv and psych print the same numbers, and so do mda (data and estimate on the same new scale), aroon, srcc, krcc and hoeffd (each series on a scale of its own), pvi and nvi when the volumes are put on another scale, and rank in the modes Min, Max and Average. The edges of donchian, and median with an odd window, are the old ones put on the new scale; median with an even window is not. For aroon and rank this holds in f64, bit for bit, for any phi that keeps the comparisons between the given values.", "quantifier": "every series, window, strictly increasing function and sorting order; exact arithmetic, aroon and rank in every arithmetic", "why_tests_cant": "ranges over all increasing functions and all series; a test compares one transformed series", "anchors": ["src/volume.rs: obv, pvi, nvi", "src/momentum.rs: psych", "src/trend.rs: aroon", "src/statistic/regression.rs: mda", "src/statistic/distribution.rs: rank, median", "src/correlation.rs: srcc, krcc, hoeffd", "src/volatility.rs: donchian"]}
{"id": "C93", "title": "Continuing from a stored result", "statement": "Run mse, mae, smape or mape on a history of p bars and on the bars that follow. For every later bar, k bars into the second part, the value over the whole history is the mean of the last value over the first part and the value over the second part alone, weighted with p and k; for rmse the same holds of the squares. So keeping the last value and the number of bars is enough to go on, and two histories that disagree by d disagree by p/(p+k) d after k common bars: the past is diluted, not forgotten. vwap without resets behaves in the same way with the traded volumes as weights.", "quantifier": "every pair of series of every length, every place where the history is cut and every later bar; exact arithmetic; no observed value 0 for mape, positive volumes for vwap", "why_tests_cant": "a statement about every way of cutting every history; a test cuts one", "anchors": ["src/statistic/regression.rs: mse, rmse, mae, mape, smape", "src/volume.rs: vwap"]}
{"id": "C94", "title": "The range of the prices limits the range of the indicators", "statement": "Oscillators without fixed bounds still cannot leave what the least price lo and the greatest price hi seen allow. For positive prices roc, ppo, trix and disparity stay between the percentage of change from hi to lo and that from lo to hi, coppock within twice, kst within 10 times, special_k within 30 times and pmo within 10 times these limits; cvi within the limits given by the least and the greatest distance of high and low. macd, qstick, dpo and both lines of elder_ray stay within hi - lo of zero and deli within 2 (hi - lo). dema, zlma and hull leave the range of the prices by at most hi - lo, tema by at most 3 (hi - lo). The Heikin-Ashi candles, all three lines of donchian, all lines of ichimoku and of alligator stay inside the range of the prices, and the two of gator between 0 and hi - lo. std_dev and mad are at most half of hi - lo, atr at most hi - lo, ulcer at most the percentage of the fall from hi to lo; the bands of bbands, keltner, chandelier and supertrend leave the range by at most their multiple of these, and on one side only for each band of the first three; the long stop of cks is at most hi and the short stop at least lo. derivative stays within 100 of zero and qqe between -423.6 and 523.6 whatever the prices.", "quantifier": "every series of every length with values between any two bounds, every window; exact arithmetic", "why_tests_cant": "a bound on the output for all inputs within a range; a test sees particular outputs", "anchors": ["src/momentum.rs: roc, ppo, trix, disparity, coppock, kst, special_k, pmo, macd, qstick, elder_ray, deli", "src/volatility.rs: cvi, heikin_ashi, atr, bbands, keltner, donchian", "src/trend.rs: dpo, ichimoku, alligator, gator, ulcer, chandelier, supertrend, cks", "src/statistic/distribution.rs: std_dev, mad", "src/smooth.rs: dema, tema, zlma, hull"]}
{"id": "C95", "title": "Markets that only rise or only fall", "statement": "For as long as the price rises on every bar, oscillators that measure strength print exactly their upper bound on every bar after the warm-up, and for as long as it falls exactly their lower bound: rsi 100 and 0, cmo 100 and -100, tsi 100 and -100, mfi (by the typical price, positive volumes) 100 and 0, psych 100 (also where the price repeats) and 0; the first line of aroon 100 for highs that do not fall and 0 for falling highs, the second 0 for rising lows and 100 for lows that do not rise. With rising highs and lows that do not fall adx is 100 and its second directional line 0. While the price does not fall ulcer is 0, obv is the sum of the volumes, sma, ewma and wilder never fall and never exceed the price, vpt, pvi and nvi never fall, and the stop of atr_stop never falls, is never above the close and so never turns. The sign of macd and ppo with the shorter window first is the direction of the market: not negative while the price does not fall, not positive while it does not rise; so is that of roc, pmo, kst, special_k and elder_force. relative_vol is 100 in a rising and 0 in a falling market. psar gives no such assurance: there are markets whose highs and lows rise on every bar in which it turns on every bar. In binary64, with all rounding and overflow, cmo still prints exactly 100 or NaN while no price is below the one before and exactly -100 or NaN while none is above, mfi exactly 100 or NaN and exactly 0 or NaN, and psych exactly 100 and exactly 0 for strict moves; rsi, tsi and relative_vol, which multiply before they divide, are within one unit in the last place (2^-46) of 100 (tsi of -100 in a falling market), or NaN, or the infinity of an overflow, and rsi and relative_vol exactly zero or NaN in a falling market; the lines of aroon are exactly 100 and 0; on proper bars whose lows never dip the falling line of adx is zero or NaN and its index exactly 100 or NaN, and likewise for highs that never rise; obv is the running float sum of the volumes, ulcer of finite prices is zero or NaN while they do not fall, roc of positive finite prices is a number or infinity of the right sign on every bar after the warm-up, and elder_force and vpt carry no minus sign, not even on a zero, while no price is below the one before, and neither do pmo, coppock, kst and special_k while positive finite prices do not fall; in such a market pvi and nvi are at least 100 and never fall, and tvi with a tick that is not negative is the running float sum of the volumes.", "quantifier": "every rising or falling series of every length, every window; exact arithmetic, and binary64 for cmo, mfi, psych, rsi, tsi, relative_vol, aroon, adx, obv, ulcer, roc, elder_force, vpt, pmo, coppock, kst, special_k, pvi, nvi and tvi (any floats; proper finite bars for adx, finite prices for ulcer, positive finite ones for the rates of change and volume indices, prices and volumes that are not negative for elder_force and vpt, windows up to 2^53/100 for psych)", "why_tests_cant": "a statement about all monotone histories; a test sees particular ones, and that an average of a shorter window is nearer to the price needs an induction over the history", "anchors": ["src/momentum.rs: rsi, cmo, tsi, psych, macd, ppo, roc, pmo, kst, special_k", "src/trend.rs: aroon, psar, adx, ulcer, atr_stop", "src/volume.rs: mfi, obv, vpt, pvi, nvi, elder_force", "src/volatility.rs: relative_vol", "src/smooth.rs: sma, ewma, wilder"]}
