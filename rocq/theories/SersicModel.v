(** Sersic profiles: the tables and interpolation of SersicMixture, SersicIndex,
    and the stepped profiles used for derivatives (sersic.py:25-490,
    galaxy.py:693-709).

    Simplifications: real numbers for floats.  scipy's
    InterpolatedUnivariateSpline is a parameter [spl] (degree, nodes, argument);
    its refusal of bad nodes is modelled.  numpy.argsort is a parameter.  A
    mixture is its list of (amplitude, variance) pairs; the means are zero. *)
From Coq Require Import List ZArith QArith Bool Reals Qreals.
From Verif Require Import Base.
Import ListNotations.
Open Scope Q_scope.

(** ** Tables *)
(** A row: Sersic index, amplitudes, variances.  A range: (lo, hi) and rows. *)
Definition row := (Q * list Q * list Q)%type.
Definition range := ((Q * Q) * list row)%type.

(** sersic.py:40-211, the rows that are not commented out. *)
Definition fits : list range := [
 ((0.29, 0.42), [
  (0.29, [29.7334; 10.0626; (-32.1111)], [0.400917; 0.223733; 0.29063]);
  (0.3, [28.1272; 8.97219; (-29.3501)], [0.410641; 0.227158; 0.29584]);
  (0.31, [26.5806; 7.94611; (-26.7125)], [0.420884; 0.230796; 0.301292]);
  (0.32, [25.0955; 6.98474; (-24.2006)], [0.431669; 0.234678; 0.307003]);
  (0.33, [23.6732; 6.08762; (-21.8156)], [0.44302; 0.238842; 0.31299]);
  (0.34, [22.3148; 5.25393; (-19.5576)], [0.454958; 0.243336; 0.319275]);
  (0.35, [21.0211; 4.4825; (-17.4262)], [0.467504; 0.248227; 0.325884]);
  (0.36, [19.7908; 3.76912; (-15.416)], [0.480684; 0.253582; 0.332854]);
  (0.37, [18.6228; 3.11202; (-13.5245)], [0.494522; 0.259516; 0.340225]);
  (0.38, [17.5146; 2.50564; (-11.7432)], [0.509046; 0.266156; 0.348055]);
  (0.39, [16.5252; 1.55052; (-9.73179)], [0.524296; 0.26729; 0.359764]);
  (0.4, [15.5942; 0.836228; (-8.01953)], [0.540194; 0.267179; 0.372381]);
  (0.41, [14.7227; 0.344169; (-6.58915)], [0.556667; 0.265585; 0.385658]);
  (0.42, [14.0586; 0; (-5.51399)], [0.572984; 0.403086; 0.403086]) ]);
 ((0.42, 0.51), [
  (0.41, [15.7428; (-7.26198)], [0.55406; 0.408598]);
  (0.42, [14.0586; (-5.51399)], [0.572984; 0.403086]);
  (0.43, [12.5707; (-3.96071)], [0.594559; 0.393181]);
  (0.44, [11.4452; (-2.76895)], [0.616783; 0.380574]);
  (0.45, [10.6629; (-1.92036)], [0.637897; 0.367586]);
  (0.46, [10.1197; (-1.31131)], [0.657376; 0.355282]);
  (0.47, [9.7311; (-0.857421)], [0.675295; 0.343829]);
  (0.48, [9.44434; (-0.506166)], [0.691845; 0.333043]);
  (0.49, [9.22735; (-0.225454)], [0.70721; 0.322121]);
  (0.5, [9.06467; 0], [0.721342; 0.316586]);
  (0.51, [8.92798; 0.198966], [0.735017; 0.311146]);
  (0.52, [8.82471; 0.363539], [0.747636; 0.301751]) ]);
 ((0.51, 0.57), [
  (0.51, [8.92797; 0.198981; 0], [0.735018; 0.311154; 0.0414387]);
  (0.515, [8.73228; 0.424472; 0.00330697], [0.746698; 0.366195; 0.0414387]);
  (0.52, [8.46752; 0.714782; 0.0107365], [0.760192; 0.406511; 0.0692738]);
  (0.53, [7.85715; 1.3651; 0.0360094], [0.789684; 0.456885; 0.10255]);
  (0.54, [7.76883; 1.50907; 0.043058], [0.805917; 0.437708; 0.0952802]);
  (0.55, [7.65445; 1.67716; 0.0516891], [0.822863; 0.427311; 0.0912697]);
  (0.56, [7.54335; 1.84057; 0.0613179], [0.839849; 0.420414; 0.088685]);
  (0.57, [7.44456; 1.99074; 0.0714226], [0.856566; 0.414979; 0.0866439]) ]);
 ((0.57, 0.62), [
  (0.57, [7.41719; 2.01535; 0.0742881; 0], [0.856566; 0.414979; 0.0866439; 0.0015899]);
  (0.575, [7.2992; 2.1504; 0.0880109; 0.000440864], [0.868967; 0.422919; 0.0942545; 0.00412021]);
  (0.58, [7.0897; 2.36255; 0.115839; 0.00162557], [0.884264; 0.437162; 0.107518; 0.00953237]);
  (0.6, [6.39792; 3.02771; 0.256107; 0.0121941], [0.942439; 0.480793; 0.152123; 0.0277202]);
  (0.62, [6.29146; 3.20893; 0.298839; 0.0148154], [0.97823; 0.474444; 0.146615; 0.0262425]);
  (0.63, [6.24609; 3.29044; 0.320663; 0.0162281], [0.995781; 0.471937; 0.144342; 0.0256226]) ]);
 ((0.62, 0.71), [
  (0.62, [6.29146; 3.20893; 0.298839; 0.0148154; 0], [0.97823; 0.474444; 0.146615; 0.0262425; 0.00197332]);
  (0.63, [6.09398; 3.38172; 0.372265; 0.0254703; 0.00068227], [1.00341; 0.487314; 0.161969; 0.0366079; 0.00408525]);
  (0.64, [5.99343; 3.48298; 0.421426; 0.0340169; 0.00150778], [1.02426; 0.491832; 0.168388; 0.0422731; 0.0063184]);
  (0.65, [5.92929; 3.55914; 0.460104; 0.0412235; 0.00229928], [1.04345; 0.493446; 0.171136; 0.0454849; 0.00760083]);
  (0.7, [5.80983; 3.81707; 0.588617; 0.0591976; 0.00360959], [1.12831; 0.487538; 0.163206; 0.0427118; 0.00700954]);
  (0.71, [5.80384; 3.85246; 0.611158; 0.0627668; 0.0038732], [1.14378; 0.485858; 0.161486; 0.0420891; 0.00686317]);
  (0.75, [5.78581; 3.98447; 0.700589; 0.0772783; 0.00495831], [1.20435; 0.480685; 0.155308; 0.0396603; 0.00628884]) ]);
 ((0.71, 1.5), [
  (0.71, [5.80384; 3.85246; 0.611158; 0.0627668; 0.0038732; 0], [1.14378; 0.485858; 0.161486; 0.0420891; 0.00686317; 0.000125639]);
  (0.72, [5.78449; 3.89063; 0.64027; 0.0693474; 0.00482271; 4.7711e-05], [1.16019; 0.486018; 0.161901; 0.0432836; 0.00770569; 0.000360731]);
  (0.73, [5.76622; 3.92465; 0.670321; 0.0771626; 0.00617073; 0.000149421], [1.17644; 0.4865; 0.162878; 0.0450234; 0.00889761; 0.000772094]);
  (0.74, [5.73834; 3.95798; 0.706138; 0.0881532; 0.00842185; 0.000385661], [1.19343; 0.488511; 0.165609; 0.048145; 0.0108527; 0.00140575]);
  (0.75, [5.74038; 3.98136; 0.726531; 0.0942424; 0.0102561; 0.000673631], [1.20789; 0.487188; 0.1649; 0.0492449; 0.0122331; 0.00192144]);
  (0.8, [5.75213; 4.09637; 0.834928; 0.119308; 0.0137876; 0.000939471], [1.27836; 0.482225; 0.159263; 0.0470525; 0.0114908; 0.00174917]);
  (0.85, [5.79382; 4.18044; 0.93266; 0.145078; 0.0176549; 0.00124088], [1.34231; 0.477026; 0.153978; 0.0449401; 0.0107664; 0.00158922]);
  (0.9, [5.85237; 4.24456; 1.02239; 0.171488; 0.0218791; 0.00158456], [1.40053; 0.471837; 0.149149; 0.0429814; 0.0101053; 0.00144948]);
  (0.95, [5.9154; 4.29436; 1.10933; 0.200379; 0.0267765; 0.00199386], [1.4543; 0.467524; 0.145402; 0.0414866; 0.00958089; 0.0013368]);
  (1, [5.99798; 4.33895; 1.17948; 0.223347; 0.0308197; 0.00235229], [1.50163; 0.460978; 0.139974; 0.039152; 0.00885129; 0.00120215]);
  (1.1, [5.83586; 4.57038; 1.46335; 0.317796; 0.0476365; 0.00386133], [1.67005; 0.487971; 0.14593; 0.0400137; 0.00876429; 0.001151]);
  (1.2, [5.73216; 4.75622; 1.71514; 0.410113; 0.0656856; 0.00563594], [1.83935; 0.5119; 0.148904; 0.0396002; 0.00839362; 0.0010718]);
  (1.3, [5.66968; 4.91188; 1.93948; 0.499674; 0.0846701; 0.00766234], [2.00901; 0.53331; 0.150175; 0.0386185; 0.00792685; 0.000989366]);
  (1.4, [5.64047; 5.05007; 2.13639; 0.5838; 0.104037; 0.00990716], [2.17789; 0.551721; 0.149915; 0.0372631; 0.00742588; 0.000910892]);
  (1.5, [5.64124; 5.1737; 2.30778; 0.662012; 0.12352; 0.0123547], [2.34334; 0.566734; 0.148472; 0.035715; 0.00693027; 0.000839978]);
  (1.55, [5.65049; 5.2323; 2.38519; 0.698456; 0.133083; 0.0136284], [2.42472; 0.573034; 0.14735; 0.0348749; 0.00668341; 0.000806695]) ]);
 ((1.5, 3.0), [
  (1.5, [5.64124; 5.1737; 2.30778; 0.662012; 0.12352; 0.0123547; 0], [2.34334; 0.566734; 0.148472; 0.035715; 0.00693027; 0.000839978; 1.27404e-07]);
  (1.6, [5.61537; 5.2611; 2.48815; 0.765994; 0.15635; 0.018094; 0.00024499], [2.52291; 0.589568; 0.151672; 0.0363008; 0.00717518; 0.000947623; 4.35091e-05]);
  (1.7, [5.69233; 5.38532; 2.59845; 0.81004; 0.165966; 0.018716; 6.74404e-05], [2.66711; 0.591014; 0.144734; 0.032994; 0.00619227; 0.00076251; 1.64929e-05]);
  (1.8, [5.4949; 5.33007; 2.85122; 1.0466; 0.272322; 0.0468646; 0.00363625], [2.93426; 0.659773; 0.170579; 0.0427035; 0.0094335; 0.001642; 0.000200853]);
  (1.9, [5.65598; 5.49575; 2.90782; 1.0314; 0.252496; 0.0382267; 0.00159733], [3.04492; 0.640408; 0.153817; 0.0354658; 0.00708065; 0.0010568; 9.93631e-05]);
  (2.0, [5.41041; 5.36575; 3.14515; 1.31485; 0.406678; 0.0902769; 0.0114168], [3.37063; 0.732207; 0.188988; 0.0485424; 0.0114482; 0.00228187; 0.000330023]);
  (2.1, [5.43605; 5.43024; 3.25475; 1.39479; 0.444065; 0.102018; 0.0133629], [3.56316; 0.75047; 0.188957; 0.0475758; 0.0110707; 0.00219774; 0.000322841]);
  (2.3, [5.50695; 5.5516; 3.44571; 1.54199; 0.517969; 0.126929; 0.017716], [3.94332; 0.782323; 0.188001; 0.0456873; 0.0103958; 0.00205463; 0.00031153]);
  (2.5, [5.59652; 5.66277; 3.6078; 1.67472; 0.59009; 0.153297; 0.0226131], [4.31446; 0.808878; 0.186254; 0.0438849; 0.00980639; 0.0019366; 0.000303158]);
  (2.7, [5.69708; 5.76403; 3.74798; 1.79608; 0.66079; 0.180995; 0.0280086], [4.67575; 0.831388; 0.184166; 0.0422426; 0.00930319; 0.00184046; 0.00029719]);
  (3.0, [5.85922; 5.89892; 3.92624; 1.96084; 0.764378; 0.224729; 0.0369456], [5.19717; 0.85919; 0.180844; 0.0401082; 0.00869111; 0.00173002; 0.00029187]);
  (3.1, [5.91409; 5.9398; 3.97918; 2.01211; 0.798292; 0.239767; 0.040112], [5.36623; 0.867383; 0.179783; 0.0394844; 0.00851896; 0.0017002; 0.000290821]) ]);
 ((3.0, 6.3), [
  (3.0, [5.85922; 5.89892; 3.92624; 1.96084; 0.764378; 0.224729; 0.0369456; 0], [5.19717; 0.85919; 0.180844; 0.0401082; 0.00869111; 0.00173002; 0.00029187; 1.2738e-07]);
  (3.1, [5.89261; 5.92745; 3.98572; 2.02531; 0.808698; 0.245297; 0.0422136; 0.000112894], [5.39377; 0.875448; 0.182264; 0.0402242; 0.00872866; 0.0017551; 0.000303572; 1.19031e-05]);
  (3.2, [5.78724; 5.86899; 4.07897; 2.17279; 0.923106; 0.306152; 0.0641956; 0.00213177], [5.78016; 0.947204; 0.200892; 0.0455095; 0.0102528; 0.00217963; 0.000413628; 5.93462e-05]);
  (3.3, [5.47036; 5.62078; 4.1782; 2.44848; 1.17503; 0.461173; 0.135215; 0.0191445], [6.50002; 1.13024; 0.257658; 0.0632557; 0.0156834; 0.00377045; 0.000851159; 0.000178873]);
  (3.4, [5.4215; 5.571; 4.22317; 2.551; 1.27341; 0.527162; 0.168619; 0.0282894], [6.86724; 1.19689; 0.275578; 0.0686685; 0.0173948; 0.00431013; 0.00100836; 0.000212777]);
  (3.5, [5.44946; 5.59631; 4.2688; 2.60459; 1.31816; 0.554882; 0.180674; 0.0307001], [7.12481; 1.22187; 0.278094; 0.0687613; 0.0173456; 0.00429558; 0.00100893; 0.000214998]);
  (4.00, [5.60921; 5.72377; 4.46477; 2.83675; 1.51974; 0.686093; 0.240192; 0.0426452], [8.40275; 1.33355; 0.287321; 0.0685146; 0.0169499; 0.00418865; 0.00100242; 0.000223784]);
  (4.50, [6.00513; 5.81635; 4.51757; 2.92305; 1.62101; 0.766762; 0.282114; 0.0516328], [8.54868; 1.27631; 0.26422; 0.0613012; 0.014927; 0.00367536; 0.000889046; 0.000204293]);
  (5.00, [6.34001; 5.893; 4.56595; 3.00318; 1.71658; 0.844897; 0.323944; 0.0607105], [8.64798; 1.22663; 0.245659; 0.0557539; 0.0134131; 0.00329657; 0.000805513; 0.000189682]);
  (5.50, [6.62811; 5.95913; 4.61021; 3.07655; 1.80515; 0.919469; 0.365005; 0.0697116], [8.71157; 1.18229; 0.230188; 0.0513001; 0.0122278; 0.0030045; 0.000741307; 0.000178303]);
  (6.00, [6.87598; 6.01584; 4.65195; 3.14545; 1.88867; 0.990882; 0.404981; 0.0785137], [8.75587; 1.14398; 0.217394; 0.0477077; 0.0112856; 0.00277359; 0.000690429; 0.000169168]);
  (6.10, [6.91899; 6.02455; 4.66025; 3.16021; 1.90634; 1.00582; 0.413331; 0.0803644], [8.76912; 1.13837; 0.21546; 0.0471597; 0.01114; 0.00273729; 0.000682265; 0.000167666]);
  (6.20, [6.96467; 6.03488; 4.66744; 3.17248; 1.92163; 1.01935; 0.421289; 0.0821744], [8.77167; 1.13077; 0.213104; 0.0465242; 0.0109783; 0.00269904; 0.000674078; 0.000166197]);
  (6.30, [7.00941; 6.04646; 4.67528; 3.1842; 1.93614; 1.03217; 0.428476; 0.0837091], [8.77363; 1.12301; 0.210661; 0.0458606; 0.0108084; 0.00265766; 0.000664904; 0.000164538]) ]) ].

(** Core flux omitted by softening, sersic.py:217-241. *)
Definition cores : list (Q * Q) := [
  (1.00, 0.000000); (1.25, 0.000070); (1.50, 0.000202); (1.75, 0.000425); (2.00, 0.000769); (2.25, 0.001262);
  (2.50, 0.001928); (2.75, 0.002788); (3.00, 0.003853); (3.25, 0.005130); (3.50, 0.006622); (3.75, 0.008325);
  (4.00, 0.010233); (4.25, 0.011748); (4.50, 0.013358); (4.75, 0.015057); (5.00, 0.016839); (5.25, 0.018698);
  (5.50, 0.020628); (5.75, 0.022625); (6.00, 0.024683); (6.25, 0.026796); (6.50, 0.028961) ].

(** ** SersicMixture.__init__ *)
Fixpoint mapM {A B} (f : A -> res B) (l : list A) : res (list B) :=
  match l with
  | [] => Ok []
  | x :: r => y <- f x ;; ys <- mapM f r ;; Ok (y :: ys)
  end.

(** The nodes of one component, sersic.py:256-263: [amps[i] for ser,amps,varr in grid]. *)
Definition column (sel : row -> list Q) (grid : list row) (i : nat) : res (list (Q * Q)) :=
  mapM (fun r => v <- py_get (sel r) i ;; Ok (fst (fst r), v)) grid.

Fixpoint increasing (l : list Q) : bool :=
  match l with
  | x :: ((y :: _) as r) => negb (Qle_bool y x) && increasing r
  | _ => true
  end.

(** InterpolatedUnivariateSpline raises ValueError unless x is strictly
    increasing and there are more than k nodes. *)
Definition spline_nodes (k : nat) (nodes : list (Q * Q)) : res (list (Q * Q)) :=
  if increasing (map fst nodes) && Nat.ltb k (length nodes) then Ok nodes else Err ValueError.

(** The node lists of one range, sersic.py:246-263 and 284. *)
Record colfit := mkcol { c_lo : Q; c_hi : Q; c_k : nat; c_amp : list (list (Q * Q)); c_var : list (list (Q * Q)) }.
Definition fit_columns (r : range) : res colfit :=
  let '((lo, hi), grid) := r in
  first <- py_get grid 0 ;;
  let K := length (snd (fst first)) in
  let k := if Nat.leb (length grid) 3 then 1%nat else 3%nat in
  a <- mapM (fun i => n <- column (fun r => snd (fst r)) grid i ;; spline_nodes k n) (seq 0 K) ;;
  v <- mapM (fun i => n <- column snd grid i ;; spline_nodes k n) (seq 0 K) ;;
  Ok (mkcol lo hi k a v).

Open Scope R_scope.

(** One entry of self.fits: range, amplitude and log-variance functions. *)
Record fit := mkfit { f_lo : R; f_hi : R; f_amps : list (R -> R); f_logvars : list (R -> R) }.
Record mixture := mkmix { m_fits : list fit; m_core : R -> R }.

Section Spline.
(** Degree, nodes, argument. *)
Variable spl : nat -> list (R * R) -> R -> R.

Definition real_nodes (l : list (Q * Q)) : list (R * R) := map (fun p => (Q2R (fst p), Q2R (snd p))) l.
Definition log_nodes (l : list (Q * Q)) : list (R * R) := map (fun p => (Q2R (fst p), ln (Q2R (snd p)))) l.

Definition fit_of (c : colfit) : fit :=
  mkfit (Q2R (c_lo c)) (Q2R (c_hi c))
        (map (fun n => spl (c_k c) (real_nodes n)) (c_amp c))
        (map (fun n => spl (c_k c) (log_nodes n)) (c_var c)).

(** SersicMixture.__init__, sersic.py:34-287. *)
Definition sersic_mixture : res mixture :=
  cn <- spline_nodes 3 cores ;;
  cs <- mapM fit_columns fits ;;
  Ok (mkmix (map fit_of cs) (spl 3 (real_nodes cn))).
End Spline.

(** ** SersicMixture._getProfile *)
Definition rle (a b : R) : bool := if Rle_dec a b then true else false.
Definition rlt (a b : R) : bool := if Rlt_dec a b then true else false.
Definition rsum (l : list R) : R := fold_right Rplus 0 l.
(** amps /= amps.sum() *)
Definition normalized (l : list R) : list R := map (fun a => a / rsum l) l.
(** l[I] for an index array I of valid indices. *)
Definition take (l : list R) (ix : list nat) : list R := map (fun i => nth i l 0) ix.

(** The ranges used and the clamped index, sersic.py:290-302. *)
Definition matches (m : mixture) (s : R) : res (list fit * R) :=
  f0 <- py_get (m_fits m) 0 ;;
  fn <- py_get (m_fits m) (length (m_fits m) - 1) ;;
  if rle s (f_lo f0) then Ok ([f0], f_lo f0)
  else if rle (f_hi fn) s then Ok ([fn], f_hi fn)
  else Ok (filter (fun f => rle (f_lo f) s && rlt s (f_hi f)) (m_fits m), s).

Definition eval (fs : list (R -> R)) (s : R) : list R := map (fun f => f s) fs.
Definition passert (b : bool) : res unit := if b then Ok tt else Err AssertionError.

(** Amplitudes and variances before the core, sersic.py:304-330. *)
Definition interpolate (ms : list fit) (s : R) : res (list R * list R) :=
  match ms with
  | [m0; m1] =>
      _ <- passert (rlt (f_lo m0) (f_lo m1)) ;;
      _ <- passert (rlt (f_lo m1) (f_hi m0)) ;;
      _ <- passert (rle (f_lo m1) s) ;;
      _ <- passert (rlt s (f_hi m0)) ;;
      let frac := (s - f_lo m1) / (f_hi m0 - f_lo m1) in
      Ok (map (Rmult (1 - frac)) (normalized (eval (f_amps m0) s)) ++
          map (Rmult frac) (normalized (eval (f_amps m1) s)),
          map exp (eval (f_logvars m0 ++ f_logvars m1) s))
  | [m0] => Ok (normalized (eval (f_amps m0) s), map exp (eval (f_logvars m0) s))
  | _ => Err AssertionError
  end.

(** The unresolved core, sersic.py:333-337. *)
Definition add_core (m : mixture) (s : R) (av : list R * list R) : list R * list R :=
  let '(amps, varr) := av in
  if rlt 1 s then
    let core := m_core m s in
    (map (fun a => a * ((1 - core) / rsum amps)) amps ++ [core], varr ++ [0])
  else (amps, varr).

Section Sort.
Variable argsort : list R -> list nat.

(** SersicMixture._getProfile, sersic.py:289-342 (without its lru_cache, which
    returns what an earlier call with the same index returned). *)
Definition get_profile (m : mixture) (s : R) : res (list (R * R)) :=
  '(ms, s') <- matches m s ;;
  av <- interpolate ms s' ;;
  let '(amps, varr) := add_core m s' av in
  let ix := argsort varr in
  Ok (combine (take amps ix) (take varr ix)).
End Sort.

(** ** SersicIndex and the stepped profiles *)
(** SersicIndex, sersic.py:344-362: value, stepsize, lower, upper. *)
Record sindex := mkindex { i_val : R; i_step : R; i_lo : R; i_up : R }.
Definition sersic_index (v : R) : sindex := mkindex v (1/100) (29/100) (63/10).
Definition is_legal (i : sindex) : bool := rle (i_val i) (i_up i) && rle (i_lo i) (i_val i).
Definition set_index (i : sindex) (v : R) : sindex := mkindex v (i_step i) (i_lo i) (i_up i).

(** A galaxy's shape parameters with their steps, its index, and which of the two
    are thawed. *)
Record gal := mkgal { g_shape : list R; g_steps : list R; g_index : sindex; g_thawed_shape : bool; g_thawed_index : bool }.
Definition with_shape (g : gal) (l : list R) : gal := mkgal l (g_steps g) (g_index g) (g_thawed_shape g) (g_thawed_index g).
Definition with_index (g : gal) (i : sindex) : gal := mkgal (g_shape g) (g_steps g) i (g_thawed_shape g) (g_thawed_index g).

(** Which parameter an entry is for: 'shape.' + name i, or the index. *)
Inductive pname := Shape (i : nat) | Index.

Section Deriv.
Variable P : Type.
(** self._getShearedProfile(img, px, py), which may raise. *)
Variable sheared : gal -> res P.
(** len(pro.amp) and len(self.getProfile().amp). *)
Variable ncomp : P -> nat.
Variable nprofile : gal -> res nat.

(** The loop of HoggGalaxy.getDerivativeShearedProfiles, galaxy.py:702-708;
    [oldvals] was read before the loop. *)
Fixpoint shape_loop (oldvals : list R) (i : nat) (steps : list R) (g : gal) : res (list (pname * P * R) * gal) :=
  match steps with
  | [] => Ok ([], g)
  | st :: rest =>
      ov <- py_get oldvals i ;;
      old <- py_get (g_shape g) i ;;
      let g1 := with_shape g (upd i (ov + st) (g_shape g)) in
      pro <- sheared g1 ;;
      let g2 := with_shape g1 (upd i old (g_shape g1)) in
      '(ds, g3) <- shape_loop oldvals (S i) rest g2 ;;
      Ok ((Shape i, pro, st) :: ds, g3)
  end.
(** HoggGalaxy.getDerivativeShearedProfiles, galaxy.py:693-709. *)
Definition shape_profiles (g : gal) : res (list (pname * P * R) * gal) :=
  if g_thawed_shape g then shape_loop (g_shape g) 0 (g_steps g) g else Ok ([], g).

(** SersicGalaxy.getDerivativeShearedProfiles, sersic.py:447-489; the index has
    one parameter, so the loop over steps is one pass. *)
Definition derivative_profiles (g : gal) : res (list (pname * P * R) * gal) :=
  '(ds, g) <- shape_profiles g ;;
  if g_thawed_index g then
    let ix := g_index g in
    let oldv := i_val ix in
    n0 <- nprofile g ;;
    _ <- passert (rlt 0 (i_step ix)) ;;
    let over := rlt (i_up ix) (oldv + i_step ix) in
    let step := if over then i_step ix * -1 else i_step ix in
    let newval := oldv + step in
    _ <- (if over then passert (rlt (i_lo ix) newval) else Ok tt) ;;
    let g1 := with_index g (set_index ix newval) in
    pro <- sheared g1 ;;
    '(pro, step, g2) <-
      (if Nat.eqb (ncomp pro) n0 then Ok (pro, step, g1)
       else
         let new2 := oldv - step in
         if rlt new2 (i_up ix) && rlt (i_lo ix) new2 then
           let g2 := with_index g1 (set_index (g_index g1) new2) in
           pro2 <- sheared g2 ;;
           if Nat.eqb (ncomp pro2) n0 then Ok (pro2, step * -1, g2) else Ok (pro, step, g2)
         else Ok (pro, step, g1)) ;;
    let g3 := with_index g2 (set_index (g_index g2) oldv) in
    Ok (ds ++ [(Index, pro, step)], g3)
  else Ok (ds, g).
End Deriv.
