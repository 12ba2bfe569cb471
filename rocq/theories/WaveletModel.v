(** Model of /repo/diamondback/transforms/wavelet_transform.py. *)
From Coq Require Import List Arith ZArith Bool String.
From Verif Require Import Base PyString CalculusModel FirModel.
Import ListNotations.
Set Asymmetric Patterns.
Close Scope string_scope. Open Scope nat_scope.

(** wavelet_transform.py:90-478, the table B.  Every entry is the decimal literal of the
    source times 10^16 (an exact integer).  Simplification: the literal is taken at its decimal
    value, Python rounds it to the nearest binary64. *)
Definition wt_scale : Z := 10000000000000000%Z.
Definition wt_table : list (string * list (Z * list Z)) :=
  ([("Coiflet"%string,
     [(5, [-726988979798400; 3378848781074200; 8525570763504200; 3848541661144800; -727288975250900; -156547626942800]);
      (11, [163873364630000; -414649367820000; -673725547220000; 3861100668230000; 8127236354500000; 4170051844240000; -764885990780000; -594344186460000; 236801719470000; 56114348190000; -18232088710000; -7205494450000]);
      (17, [-37935128640000; 77825964260000; 234526961420000; -657719112810000; -611233900030000; 4051769024100000; 7937772226260000; 4284834763780000; -717998216190000; -823019271060000; 345550275730000; 158805448640000; -90079761370000; -25745176880000; 11175187710000; 4662169600000; -709833030000; -345997730000]);
      (23, [8923136680000; -16294920130000; -73461663280000; 160689439640000; 266823001560000; -812666996800000; -560773133160000; 4153084070300000; 7822389309200000; 4343860564910000; -666274742630000; -962204420340000; 393344271230000; 250822618450000; -152117315270000; -56582866860000; 37514361570000; 12665619290000; -5890207570000; -2599745520000; 623390340000; 312298760000; -32596800000; -17849850000]);
      (29, [-2120808630000; 3585896770000; 21782363050000; -41593587820000; -101311175380000; 234081567620000; 281680290620000; -919200105490000; -520431632160000; 4215662067290000; 7742896037400000; 4379916262280000; -620359639060000; -1055742087060000; 412892087410000; 326835742830000; -197617790120000; -91642311530000; 67641854190000; 24333732090000; -16628637690000; -6381312960000; 3022595200000; 1405411490000; -413404840000; -213150140000; 37345970000; 20638060000; -1674080000; -951580000])]);
    ("Daubechies"%string,
     [(3, [4829629131445341; 8365163037378077; 2241438680420134; -1294095225512603]);
      (5, [3326705529500825; 8068915093110924; 4598775021184914; -1350110200102546; -854412738820267; 352262918857095]);
      (7, [2303778133088964; 7148465715529154; 6308807679398587; -279837694168599; -1870348117190931; 308413818355607; 328830116668852; -105974017850690]);
      (9, [1601023979741929; 6038292697971895; 7243085284377726; 1384281459013203; -2422948870663823; -322448695846381; 775714930400459; -62414902127983; -125807519990820; 33357252854738]);
      (11, [1115407433501095; 4946238903984533; 7511339080210959; 3152503517091982; -2262646939654400; -1297668675672625; 975016055873225; 275228655303053; -315820393174862; 5538422011614; 47772575109455; -10730108530850]);
      (13, [778520540850000; 3965393194820000; 7291320908460000; 4697822874050000; -1439060039290000; -2240361849940000; 713092192670000; 806126091510000; -380299369350000; -165745416310000; 125509985560000; 4295779730000; -18016407040000; 3537138000000]);
      (15, [544158422430000; 3128715909140000; 6756307362970000; 5853546836540000; -158291052560000; -2840155429620000; 4724845740000; 1287474266200000; -173693010020000; -440882539310000; 139810279170000; 87460940470000; -48703529930000; -3917403730000; 6754494060000; -1174767840000]);
      (17, [380779473640000; 2438346746130000; 6048231236900000; 6572880780510000; 1331973858250000; -2932737832790000; -968407832230000; 1485407493380000; 307256814790000; -676328290610000; 2509471150000; 223616621240000; -47232047580000; -42815036820000; 18476468830000; 2303857640000; -2519631890000; 393473200000]);
      (19, [266700579010000; 1881768000780000; 5272011889320000; 6884590394540000; 2811723436610000; -2498464243270000; -1959462743770000; 1273693403360000; 930573646040000; -713941471660000; -294575368220000; 332126740590000; 36065535670000; -107331754830000; 13953517470000; 19924052950000; -6858566950000; -1164668550000; 935886700000; -132642030000])]);
    ("Haar"%string,
     [(1, [10000000000000000; 10000000000000000])]);
    ("Symmlet"%string,
     [(7, [-757657147893600; -296355276459600; 4976186676325600; 8037387518053900; 2978577956056100; -992195435769600; -126039672622600; 322231006040800]);
      (9, [195388827353900; -211018340249300; -1753280899081000; 166021057644200; 6339789634569100; 7234076904037600; 1993975339769800; -391342493025800; 295194909260700; 273330683451600]);
      (11, [154041093273400; 34907120843300; -1179901111484200; -483117425860000; 4910559419276700; 7876411410288400; 3379294217282600; -726375227866000; -210602925127000; 447249017707500; 17677118644000; -78007083247700]);
      (13, [26818145681200; -10473848889700; -126363034031500; 305155131658900; 678926935015600; -495528349370200; 174412550871000; 5361019170905100; 7677643170042000; 2886296317508400; -1400472404426400; -1078082377035600; 40102448717000; 102681767084900]);
      (15, [18899503329000; -3029205145500; -149522583367900; 38087520140600; 491371796734800; -272190299168200; -519458381078800; 3644418948359900; 7771857516998100; 4813596512592400; -612733590679100; -1432942383510700; 76074873252900; 316950878103500; -5421323316400; -33824159513600]);
      (17, [14009155255700; 6197808890500; -132719677815200; -115282102079800; 302248788579700; 5834627463300; -545689584305400; 2387609146072400; 7178970827637000; 6173384491409000; 352724880359100; -1915508312963500; -182337707798100; 620777893027200; 88592674935100; -102640640276800; -4731544985900; 10694900326500]);
      (19, [7701598089400; 956326707600; -86412992741200; -14653825830400; 459272392140800; 116098939105200; -1594942788238900; -708805357959100; 4716906667431700; 7695100368520400; 3838267611444300; -355367402979700; -319900568214200; 499949720686100; 57649120443400; -203549397996500; -8043589343700; 45931735827000; 570360843300; -4593294204500])])])%Z.

Fixpoint assoc_str {X} (s : string) (l : list (string * X)) : option X :=
  match l with [] => None | (k, v) :: l' => if String.eqb s k then Some v else assoc_str s l' end.
Fixpoint assoc_Z {X} (s : Z) (l : list (Z * X)) : option X :=
  match l with [] => None | (k, v) :: l' => if Z.eqb s k then Some v else assoc_Z s l' end.

Definition mapM {X Y} (f : X -> res Y) : list X -> res (list Y) :=
  fix go l := match l with
              | [] => Ok []
              | x :: l' => bind (f x) (fun y => bind (go l') (fun ys => Ok (y :: ys)))
              end.

Section Wavelet.
  Context {A : Arith}.

  (** l[ii::2] *= -1.0 *)
  Definition neg_from (ii : nat) (l : list A) : list A :=
    map (fun '(k, x) => if Nat.leb ii k && Nat.even (k - ii) then mul x (opp one) else x)
        (combine (seq 0 (length l)) l).

  (** self._b: ((low, high) of analysis, (low, high) of synthesis). *)
  Record wbank : Type := mkBank { ba0 : list A; ba1 : list A; bs0 : list A; bs1 : list A }.

  (** wavelet_transform.py:500-513, for any row of coefficients.  For even n > 0 the
      condition of line 507 is the truth value of an array with several elements. *)
  Definition wt_bank (row : list A) : res wbank :=
    let n := length row - 1 in                                              (* 501 *)
    let b := map (fun x => div x (sum row)) row in                          (* 502 *)
    let v := rev b in                                                       (* 503 *)
    if Nat.odd n || Nat.eqb n 0 then
      let i0 := 1 in let i1 := if Nat.odd n then 0 else 1 in                (* 504-508 *)
      let hp i l := let h := neg_from i l in if Nat.eqb n 1 then h else rev h in (* 510-513 *)
      Ok (mkBank b (hp i0 b) v (hp i1 v))
    else Err ValueError.

  Definition wt_row (r : list Z) : list A := map (fun z => div (of_Z z) (of_Z wt_scale)) r.

  (** wavelet_transform.py:485-513, __init__. *)
  Definition wt_make (style : string) (order : Z) : res wbank :=
    match assoc_str (py_title style) wt_table with                          (* 494-496 *)
    | None => Err ValueError
    | Some rows =>
        match assoc_Z order rows with                                       (* 497-498 *)
        | None => Err ValueError
        | Some r => wt_bank (wt_row r)
        end
    end.

  (** l[::2] *)
  Fixpoint every2 (l : list A) : list A :=
    match l with
    | a :: _ :: r => a :: every2 r
    | _ => l
    end.

  (** fir_filter[kk].s[:] = 0.0 followed by filter(x): lines 551-552, 576-577 and alike. *)
  Definition zfilter (f : fir A) (x : list A) : res (list A) :=
    snd (fir_filter (with_s f (zeros (length (fs f)))) x).

  (** lines 550-553 and 557-560: one line of the array, of dtype [dt], is analysed. *)
  Definition line_analysis (dt : dtype) (f0 f1 : fir A) (x : list A) : res (list A) :=
    bind (zfilter f0 x) (fun u0 => bind (zfilter f1 x) (fun u1 =>
      Ok (map (cast dt) (every2 (tl u0)) ++ map (cast dt) (every2 (tl u1))))).

  (** u = zeros; u[::2] = y *)
  Definition upsample (y : list A) : list A := flat_map (fun v => [cast DFloat v; zero]) y.

  (** lines 573-578 and 582-587: one line is synthesised. *)
  Definition line_synthesis (dt : dtype) (f0 f1 : fir A) (y : list A) : res (list A) :=
    let h := length y / 2 in
    let two := add one one in
    bind (zfilter f0 (upsample (firstn h y))) (fun w0 =>
    bind (zfilter f1 (upsample (firstn h (skipn h y)))) (fun w1 =>
      Ok (map (cast dt) (map2 add (map2 add (zeros (length y)) (map (mul two) w0)) (map (mul two) w1))))).

  (** Matrices are lists of rows. *)
  Definition transp (c : nat) (M : list (list A)) : list (list A) :=
    map (fun j => map (fun row => nth j row zero) M) (seq 0 c).
  (** for jj in range(0, cc): y[:rr, jj] = f(v[:rr, jj]) *)
  Definition map_cols (f : list A -> res (list A)) (c r : nat) (M : list (list A)) : res (list (list A)) :=
    bind (mapM f (transp c M)) (fun T => Ok (transp r T)).
  (** y[:ii, 0:jj] and the assignment to it. *)
  Definition block (ii jj : nat) (M : list (list A)) : list (list A) := map (firstn jj) (firstn ii M).
  Definition set_block (ii jj : nat) (B M : list (list A)) : list (list A) :=
    map2 (fun b row => b ++ skipn jj row) B (firstn ii M) ++ skipn ii M.

  (** wavelet_transform.py:538-587 on a matrix [M] with [cols] columns (rows are len M);
      [count] = 0 stands for any count <= 0.  Simplification: the loops write whole rows and
      columns, because after the check of line 540 rr = rows and cc = cols unless cols = 0. *)
  Fixpoint wt_mat (bank : wbank) (dt : dtype) (inverse : bool) (count : nat) (cols : nat) (M : list (list A))
    : res (list (list A)) :=
    match count with
    | 0 => Err ValueError                                                   (* 538-539 *)
    | S count' =>
        let rows := length M in
        if (negb (rows =? 1) && negb (rows mod 2 ^ count =? 0)) ||
           (negb (cols =? 1) && negb (cols mod 2 ^ count =? 0)) then Err ValueError (* 540-541 *)
        else
          let rr := Nat.max (rows / 2 ^ count * 2 ^ count) 1 in             (* 542 *)
          let cc := Nat.max (cols / 2 ^ count * 2 ^ count) 1 in             (* 543 *)
          let '(b0, b1) := if inverse then (bs0 bank, bs1 bank) else (ba0 bank, ba1 bank) in (* 545 *)
          bind (fir_make (mkArr DFloat b0) (mkArr DFloat [])) (fun f0 =>
          bind (fir_make (mkArr DFloat b1) (mkArr DFloat [])) (fun f1 =>    (* 546 *)
          let ii := Nat.max (rr / 2) 1 in let jj := Nat.max (cc / 2) 1 in
          let inner y := if Nat.ltb 0 count'                                (* 561-564, 566-569 *)
                         then bind (wt_mat bank dt inverse count' (Nat.min jj cols) (block ii jj y))
                                   (fun B => Ok (set_block ii jj B y))
                         else Ok y in
          let do_cols (line : list A -> res (list A)) M :=
            if Nat.ltb 1 rr then if cols =? 0 then Err IndexError else map_cols line cc rr M
            else Ok M in
          let do_rows (line : list A -> res (list A)) M := if Nat.ltb 1 cc then mapM line M else Ok M in
          if negb inverse then
            bind (do_rows (line_analysis dt f0 f1) M) (fun M1 =>            (* 548-554 *)
            bind (do_cols (line_analysis dt f0 f1) M1) inner)               (* 555-564 *)
          else
            bind (inner M) (fun M1 =>                                       (* 566-569 *)
            bind (do_cols (line_synthesis dt f0 f1) M1) (fun M2 =>          (* 570-578 *)
            do_rows (line_synthesis dt f0 f1) M2))))                        (* 579-587 *)
    end.

  (** An argument array: one- or two-dimensional (the number of columns is part of the shape),
      or of another rank. *)
  Inductive ndarr : Type :=
  | ND1 (x : list A)
  | ND2 (cols : nat) (M : list (list A))
  | ND0
  | NDn.

  (** wavelet_transform.py:515-590, transform.  [dt] is the dtype of the array x. *)
  Definition wt_transform (bank : wbank) (dt : dtype) (x : ndarr) (count : Z) (inverse : bool) : res ndarr :=
    let go cols M := if (count <=? 0)%Z then Err ValueError else wt_mat bank dt inverse (Z.to_nat count) cols M in
    match x with
    | ND0 => Err TypeError                                                  (* 534: len() *)
    | NDn => Err ValueError                                                 (* 534-535 *)
    | ND1 x => if length x =? 0 then Err ValueError
               else bind (go (length x) [x])
                         (fun M => match M with [] => Err IndexError | r :: _ => Ok (ND1 r) end) (* 588-589 *)
    | ND2 cols M => if length M =? 0 then Err ValueError
                    else bind (go cols M) (fun M => Ok (ND2 cols M))
    end.
End Wavelet.
Arguments wbank : clear implicits.
Arguments ndarr : clear implicits.
