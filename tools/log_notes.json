{
 "tightened": {
  "q008": [
   "C57_newton_trace",
   "C57_newton_returns"
  ],
  "r018": [
   "C96_direction"
  ],
  "r021": [
   "C27_target_lengths"
  ],
  "r034": [
   "C96_unit"
  ],
  "r059": [
   "C73_drawing",
   "C73_polygon"
  ],
  "s058": [
   "C105_generated"
  ],
  "s059": [
   "C105_wrong_primitives",
   "C105_wrong_parameters"
  ]
 },
 "notes": {
  "m016": "not noticed at first; both theorems added, see m016r",
  "m027": "not noticed at first; theorem added, see m027r",
  "q008": "not noticed at first; the statement used the model's rel_of: restated with SolverSpec.ratio, see r001",
  "r018": "not noticed at first; C96_direction added, see s001",
  "r021": "not noticed at first; C27_target_lengths added, see s002",
  "r029": "equivalent edit: only the internal argument names change, which nothing returned by the API shows",
  "r034": "not noticed at first; C96_unit added, see s003",
  "r059": "not noticed at first: the specification's label used the model's own dots; restated independently, and C73_drawing and C73_polygon added, see s004",
  "s058": "not noticed at first (only the fuel of the model's loop, but add_constraint without a key then fails); C105_generated added, see u001",
  "s059": "not noticed at first: no theorem said which exception is raised; C105 added, see u002",
  "t023": "survives rightly: the helper is only used by compounds declared with no parameters, and the count is checked before (C31), so the list handed on is the empty one either way",
  "t002": "C102 is not falsified: its two iterations are fixed by the iterates, not by the reported relative error; C101 is",
  "t010": "C96 speaks of the value, which is unchanged; the wrong declaration is what C21 forbids",
  "t026": "the constraint is the one of C34, where it fails; the claim noted with the edit was the wrong number",
  "t006": "the edit falsifies C41, which fails; another claim was written down at first",
  "r026": "the edit falsifies C76, which fails; another claim was written down at first",
  "r057": "the edit falsifies C73, which fails; another claim was written down at first"
 },
 "drop": [
  "n054",
  "n056",
  "n057",
  "n058",
  "n059",
  "n061"
 ],
 "claims": {
  "m056": [
   "C24"
  ],
  "q018": [
   "C21"
  ],
  "q036": [
   "C12"
  ],
  "t023": [],
  "t002": [
   "C101"
  ],
  "t010": [
   "C21"
  ],
  "t026": [
   "C34"
  ],
  "t006": [
   "C41"
  ],
  "r026": [
   "C76"
  ],
  "r057": [
   "C73"
  ],
  "r029": []
 },
 "rename": {
  "C13_line_surplus_refuted": "C13_line_surplus_ignored",
  "C15_axes_given_refuted": "C15_surplus_ignored",
  "C29_partial_application_partial": "C29_partial_application"
 }
}