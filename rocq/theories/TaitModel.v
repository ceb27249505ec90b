(** Model of the parameter database of the Tait equation (properties/pvt/io.py, Tait_parameters.tsv), of its constructor and of
    the evaluation with units (tait.py).  The equation itself is in PropModel. *)
From Coq Require Import Reals List Bool String.
From Verif Require Import Prelude RootsModel UtilsModel PropModel.
Import ListNotations.
Open Scope R_scope.

(** a row of the table: polymer, A0, A1, A2, B0, B1, validity range of temperature [K] and of pressure [Pa] *)
Record trow := mkRow { tr_name : string; tr_p : tait; tr_Tmin : R; tr_Tmax : R; tr_Pmin : R; tr_Pmax : R }.
(** Tait_parameters.tsv:2-29 *)
Definition tait_table : list trow := [
  mkRow "BR" (mkTait (10969 / 10 ^ 7) (76789 / 10 ^ 11) (- (22216 / 10 ^ 14)) (17596 * 10 ^ 4) (43355 / 10 ^ 7)) (277) (328) (100 * 10 ^ 3) (283 * 10 ^ 6);
  mkRow "HDPE" (mkTait (11567 / 10 ^ 7) (62888 / 10 ^ 11) (11268 / 10 ^ 13) (17867 * 10 ^ 4) (47254 / 10 ^ 7)) (415) (472) (100 * 10 ^ 3) (200 * 10 ^ 6);
  mkRow "HMDS" (mkTait (12727 / 10 ^ 7) (16849 / 10 ^ 10) (43376 / 10 ^ 13) (58910 * 10 ^ 3) (11203 / 10 ^ 6)) (298) (343) 0 (900 * 10 ^ 6);
  mkRow "i-PB" (mkTait (11561 / 10 ^ 7) (61015 / 10 ^ 11) (83234 / 10 ^ 14) (18382 * 10 ^ 4) (47833 / 10 ^ 7)) (407) (514) 0 (196 * 10 ^ 6);
  mkRow "i-PMMA" (mkTait (7977 / 10 ^ 7) (55274 / 10 ^ 11) (- (14503 / 10 ^ 14)) (29210 * 10 ^ 4) (4196 / 10 ^ 6)) (328) (463) (100 * 10 ^ 3) (200 * 10 ^ 6);
  mkRow "i-PP" (mkTait (12033 / 10 ^ 7) (48182 / 10 ^ 11) (77589 / 10 ^ 14) (14236 * 10 ^ 4) (40184 / 10 ^ 7)) (447) (571) 0 (196 * 10 ^ 6);
  mkRow "LDPE" (mkTait (11004 / 10 ^ 7) (14557 / 10 ^ 10) (- (15749 / 10 ^ 13)) (17598 * 10 ^ 4) (46677 / 10 ^ 7)) (398) (471) (100 * 10 ^ 3) (200 * 10 ^ 6);
  mkRow "LLDPE" (mkTait (11105 / 10 ^ 7) (12489 / 10 ^ 10) (- (40642 / 10 ^ 14)) (17255 * 10 ^ 4) (44256 / 10 ^ 7)) (420) (473) (100 * 10 ^ 3) (200 * 10 ^ 6);
  mkRow "PA" (mkTait (78153 / 10 ^ 8) (36134 / 10 ^ 11) (27519 / 10 ^ 14) (34019 * 10 ^ 4) (38021 / 10 ^ 7)) (455) (588) 0 (177 * 10 ^ 6);
  mkRow "PBMA" (mkTait (93282 / 10 ^ 8) (57856 / 10 ^ 11) (57343 / 10 ^ 14) (22569 * 10 ^ 4) (53116 / 10 ^ 7)) (295) (473) (100 * 10 ^ 3) (200 * 10 ^ 6);
  mkRow "PC" (mkTait (79165 / 10 ^ 8) (44201 / 10 ^ 11) (28583 / 10 ^ 14) (31268 * 10 ^ 4) (39728 / 10 ^ 7)) (430) (610) 0 (177 * 10 ^ 6);
  mkRow "PCHMA" (mkTait (8741 / 10 ^ 7) (49035 / 10 ^ 11) (32707 / 10 ^ 14) (30545 * 10 ^ 4) (5503 / 10 ^ 6)) (383) (472) (100 * 10 ^ 3) (200 * 10 ^ 6);
  mkRow "PDMS" (mkTait (10122 / 10 ^ 7) (77266 / 10 ^ 11) (19944 / 10 ^ 13) (87746 * 10 ^ 3) (6256 / 10 ^ 6)) (298) (343) 0 (100 * 10 ^ 6);
  mkRow "PDMS3" (mkTait (10736 / 10 ^ 7) (12837 / 10 ^ 10) (14565 / 10 ^ 14) (73947 * 10 ^ 3) (80773 / 10 ^ 7)) (298) (343) 0 (900 * 10 ^ 6);
  mkRow "PDMS10" (mkTait (10536 / 10 ^ 7) (11041 / 10 ^ 10) (46289 / 10 ^ 14) (81208 * 10 ^ 3) (71257 / 10 ^ 7)) (298) (343) 0 (900 * 10 ^ 6);
  mkRow "PDMS20" (mkTait (10271 / 10 ^ 7) (11054 / 10 ^ 10) (- (27259 / 10 ^ 14)) (85511 * 10 ^ 3) (67944 / 10 ^ 7)) (298) (343) 0 (900 * 10 ^ 6);
  mkRow "PDMS100" (mkTait (10095 / 10 ^ 7) (10662 / 10 ^ 10) (- (36476 / 10 ^ 14)) (88352 * 10 ^ 3) (63228 / 10 ^ 7)) (298) (343) 0 (900 * 10 ^ 6);
  mkRow "PDMS350" (mkTait (10056 / 10 ^ 7) (10003 / 10 ^ 10) (12039 / 10 ^ 15) (90488 * 10 ^ 3) (64221 / 10 ^ 7)) (298) (343) 0 (900 * 10 ^ 6);
  mkRow "PDMS1000" (mkTait (10076 / 10 ^ 7) (91603 / 10 ^ 11) (82159 / 10 ^ 14) (89137 * 10 ^ 3) (63938 / 10 ^ 7)) (298) (343) 0 (900 * 10 ^ 6);
  mkRow "PHENOXY" (mkTait (83796 / 10 ^ 8) (36449 / 10 ^ 11) (52933 / 10 ^ 14) (35434 * 10 ^ 4) (43649 / 10 ^ 7)) (349) (574) 0 (177 * 10 ^ 6);
  mkRow "PIB" (mkTait (1089 / 10 ^ 6) (25554 / 10 ^ 11) (22682 / 10 ^ 13) (19410 * 10 ^ 4) (39995 / 10 ^ 7)) (326) (383) 0 (100 * 10 ^ 6);
  mkRow "PMMA" (mkTait (82396 / 10 ^ 8) (3049 / 10 ^ 10) (70201 / 10 ^ 14) (29803 * 10 ^ 4) (43789 / 10 ^ 7)) (387) (432) (100 * 10 ^ 3) (200 * 10 ^ 6);
  mkRow "PMP" (mkTait (12078 / 10 ^ 7) (51461 / 10 ^ 11) (97366 / 10 ^ 14) (14978 * 10 ^ 4) (46302 / 10 ^ 7)) (514) (592) 0 (196 * 10 ^ 6);
  mkRow "POM" (mkTait (83198 / 10 ^ 8) (2755 / 10 ^ 10) (22 / 10 ^ 10) (31030 * 10 ^ 4) (44652 / 10 ^ 7)) (462) (492) 0 (196 * 10 ^ 6);
  mkRow "PoMS" (mkTait (93905 / 10 ^ 8) (51288 / 10 ^ 11) (59157 / 10 ^ 15) (24690 * 10 ^ 4) (36633 / 10 ^ 7)) (413) (471) (100 * 10 ^ 3) (180 * 10 ^ 6);
  mkRow "PS" (mkTait (93805 / 10 ^ 8) (33086 / 10 ^ 11) (6691 / 10 ^ 13) (25001 * 10 ^ 4) (41815 / 10 ^ 7)) (389) (469) (100 * 10 ^ 3) (200 * 10 ^ 6);
  mkRow "PTFE" (mkTait (46867 / 10 ^ 8) (11542 / 10 ^ 11) (11931 / 10 ^ 13) (40910 * 10 ^ 4) (92556 / 10 ^ 7)) (604) (646) 0 (392 * 10 ^ 6);
  mkRow "PVAC" (mkTait (82832 / 10 ^ 8) (47205 / 10 ^ 11) (11364 / 10 ^ 13) (18825 * 10 ^ 4) (38774 / 10 ^ 7)) (337) (393) 0 (100 * 10 ^ 6)].

(** tait.py:72-81 — the object *)
Record tobj := mkTobj { to_p : tait; to_Tmin : fl; to_Tmax : fl; to_Pmin : fl; to_Pmax : fl; to_name : string }.
(** subtraction of floats *)
Definition fl_minus (a b : fl) : fl :=
  match a, b with
  | Fin x, Fin y => Fin (x - y)
  | NaN, _ | _, NaN | PInf, PInf | NInf, NInf => NaN
  | PInf, _ | _, NInf => PInf
  | NInf, _ | _, PInf => NInf
  end.
(** tait.py:86-122 — __init__ *)
Definition tait_init (p : tait) (Tmin Tmax Pmin Pmax : fl) (name : string) : res tobj :=
  do _ <- check_bounds (VNum (Fin (tA0 p))) (Fin (/ 10 ^ 4)) (Fin (2 / 10 ^ 3));
  do _ <- check_bounds (VNum (Fin (tA1 p))) (Fin (/ 10 ^ 7)) (Fin (2 / 10 ^ 6));
  do _ <- check_bounds (VNum (Fin (tA2 p))) (Fin (- (2 / 10 ^ 9))) (Fin (/ 10 ^ 8));
  do _ <- check_bounds (VNum (Fin (tB0 p))) (Fin (10 ^ 7)) (Fin (10 ^ 9));
  do _ <- check_bounds (VNum (Fin (tB1 p))) (Fin (/ 10 ^ 3)) (Fin (2 / 10 ^ 2));
  do _ <- check_bounds (VNum Tmin) (Fin 0) PInf;
  do _ <- check_bounds (VNum Tmax) (Fin 0) PInf;
  do _ <- check_bounds (VNum (fl_minus Tmax Tmin)) (Fin eps) PInf;
  do _ <- check_bounds (VNum Pmin) (Fin 0) PInf;
  do _ <- check_bounds (VNum Pmax) (Fin 0) PInf;
  do _ <- check_bounds (VNum (fl_minus Pmax Pmin)) (Fin eps) PInf;
  Ok (mkTobj p Tmin Tmax Pmin Pmax name).
(** tait.py:271-280 — from_database on a table: the first row with that index; without one, IndexError is caught, a message
    is printed and None returned *)
Definition from_table (t : list trow) (name : string) : res (option tobj) :=
  match find (fun r => String.eqb (tr_name r) name) t with
  | None => Ok None
  | Some r => do o <- tait_init (tr_p r) (Fin (tr_Tmin r)) (Fin (tr_Tmax r)) (Fin (tr_Pmin r)) (Fin (tr_Pmax r)) name; Ok (Some o)
  end.
(** tait.py:258-260 — vs for one temperature and one pressure; the flags are the warnings about the validity ranges.
    Simplification: infinite and nan inputs of the equation give no number. *)
Definition tait_vs (o : tobj) (T P : R) (Tunit Punit : string) : res (R * bool * bool) :=
  do rT <- convert_check_temperature [Fin T] Tunit (to_Tmin o) (to_Tmax o);
  do rP <- convert_check_pressure [Fin P] Punit (to_Pmin o) (to_Pmax o);
  match fst rT, fst rP with
  | [Fin TK], [Fin Pa] => Ok (tait_eval (to_p o) TK Pa, snd rT, snd rP)
  | _, _ => Err ValueError
  end.

(** io.py:9-21 — the table is read once and kept; get_database (tait.py:293) hands it out, from_database reads it.  A caller
    who holds the table may change it in place. *)
Inductive dop := DGet | DChange (f : list trow -> list trow) | DFrom (name : string).
Inductive dout := OTable (t : list trow) | OTait (r : res (option tobj)) | ODone.
(** io.py:12-21 — load_PVT_parameters: the table and the new state of table_parameters *)
Definition load_pvt (s : option (list trow)) : list trow := match s with None => tait_table | Some t => t end.
Fixpoint drun (h : list dop) (s : option (list trow)) : list dout :=
  match h with
  | [] => []
  | DGet :: h' => let t := load_pvt s in OTable t :: drun h' (Some t)
  | DFrom n :: h' => let t := load_pvt s in OTait (from_table t n) :: drun h' (Some t)
  | DChange f :: h' => ODone :: drun h' (match s with None => None | Some t => Some (f t) end)
  end.
