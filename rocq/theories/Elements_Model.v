(** The element table: utils/atomic/elements.py 63-187 (symbol, atomic number, group, spin;
    the period is left out) and unpaired_electron, lines 34-60. *)
From Coq Require Import ZArith List String.
From Verif Require Import Common.
Import ListNotations.
Open Scope Z_scope.

Definition elements : list (string * (Z * Z * option Z)) := [
  ("X", (0, (-86), None)); ("H", (1, 1, None)); ("He", (2, 18, None)); ("Li", (3, 1, None)); ("Be", (4, 2, None));
  ("B", (5, 13, None)); ("C", (6, 14, None)); ("N", (7, 15, None)); ("O", (8, 16, None)); ("F", (9, 17, None));
  ("Ne", (10, 18, None)); ("Na", (11, 1, None)); ("Mg", (12, 2, None)); ("Al", (13, 13, None)); ("Si", (14, 14, None));
  ("P", (15, 15, None)); ("S", (16, 16, None)); ("Cl", (17, 17, None)); ("Ar", (18, 18, None)); ("K", (19, 1, None));
  ("Ca", (20, 2, None)); ("Sc", (21, 3, Some 1)); ("Ti", (22, 4, Some 2)); ("V", (23, 5, Some 3)); ("Cr", (24, 6, Some 6));
  ("Mn", (25, 7, Some 5)); ("Fe", (26, 8, Some 4)); ("Co", (27, 9, Some 3)); ("Ni", (28, 10, Some 2)); ("Cu", (29, 11, Some 1));
  ("Zn", (30, 12, Some 0)); ("Ga", (31, 13, None)); ("Ge", (32, 14, None)); ("As", (33, 15, None)); ("Se", (34, 16, None));
  ("Br", (35, 17, None)); ("Kr", (36, 18, None)); ("Rb", (37, 1, None)); ("Sr", (38, 2, None)); ("Y", (39, 3, Some 1));
  ("Zr", (40, 4, Some 2)); ("Nb", (41, 5, Some 5)); ("Mo", (42, 6, Some 6)); ("Tc", (43, 7, Some 5)); ("Ru", (44, 8, Some 4));
  ("Rh", (45, 9, Some 3)); ("Pd", (46, 10, Some 0)); ("Ag", (47, 11, Some 1)); ("Cd", (48, 12, Some 0)); ("In", (49, 13, None));
  ("Sn", (50, 14, None)); ("Sb", (51, 15, None)); ("Te", (52, 16, None)); ("I", (53, 17, None)); ("Xe", (54, 18, None));
  ("Cs", (55, 1, None)); ("Ba", (56, 2, None)); ("La", (57, 3, None)); ("Ce", (58, (-1), None)); ("Pr", (59, (-1), None));
  ("Nd", (60, (-1), None)); ("Pm", (61, (-1), None)); ("Sm", (62, (-1), None)); ("Eu", (63, (-1), None)); ("Gd", (64, (-1), None));
  ("Tb", (65, (-1), None)); ("Dy", (66, (-1), None)); ("Ho", (67, (-1), None)); ("Er", (68, (-1), None)); ("Tm", (69, (-1), None));
  ("Yb", (70, (-1), None)); ("Lu", (71, (-1), None)); ("Hf", (72, 4, None)); ("Ta", (73, 5, None)); ("W", (74, 6, None));
  ("Re", (75, 7, None)); ("Os", (76, 8, None)); ("Ir", (77, 9, None)); ("Pt", (78, 10, None)); ("Au", (79, 11, None));
  ("Hg", (80, 12, None)); ("Tl", (81, 13, None)); ("Pb", (82, 14, None)); ("Bi", (83, 15, None)); ("Po", (84, 16, None));
  ("At", (85, 17, None)); ("Rn", (86, 18, None)); ("Fr", (87, 1, None)); ("Ra", (88, 2, None)); ("Ac", (89, 3, None));
  ("Th", (90, (-1), None)); ("Pa", (91, (-1), None)); ("U", (92, (-1), None)); ("Np", (93, (-1), None)); ("Pu", (94, (-1), None));
  ("Am", (95, (-1), None)); ("Cm", (96, (-1), None)); ("Bk", (97, (-1), None)); ("Cf", (98, (-1), None)); ("Es", (99, (-1), None));
  ("Fm", (100, (-1), None)); ("Md", (101, (-1), None)); ("No", (102, (-1), None)); ("Lr", (103, (-1), None)); ("Rf", (104, 4, None));
  ("Db", (105, 5, None)); ("Sg", (106, 6, None)); ("Bh", (107, 7, None)); ("Hs", (108, 8, None)); ("Mt", (109, 9, None));
  ("Ds", (110, 10, None)); ("Rg", (111, 11, None)); ("Cn", (112, 12, None)); ("Nh", (113, 13, None)); ("Fl", (114, 14, None));
  ("Mc", (115, 15, None)); ("Lv", (116, 16, None)); ("Ts", (117, 17, None)); ("Og", (118, 18, None))
]%string.
(** [None]: NotImplementedError. *)
Definition unpaired_electron (group : Z) (spin : option Z) : option Z :=
  match spin with
  | Some s => Some s
  | None =>
      match group with
      | 1 => Some 1 | 2 => Some 0 | 13 => Some 1 | 14 => Some 2 | 15 => Some 3 | 16 => Some 2 | 17 => Some 1 | 18 => Some 0
      | _ => None
      end
  end.
(** from_symbol[symbol]: atomic number and unpaired electrons. *)
Definition element_of (s : string) : option (Z * Z) :=
  match dict_get elements s with
  | Some (z, g, sp) => option_map (fun u => (z, u)) (unpaired_electron g sp)
  | None => None
  end.
