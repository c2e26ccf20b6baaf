{
 "b2_SolverModel_setOptimizer_79": [
  "C34_tools_used",
  "C34_tools_accepted",
  "C34_infinities"
 ],
 "b2_SolverModel_specifySettings_80": [
  "C34_tools_used"
 ],
 "q21": [
  "C66_trajectory_setter"
 ],
 "q41": [
  "C67_hessian_patterns"
 ],
 "q42": [
  "C67_trajectory_setter"
 ],
 "r14": [
  "C70_other_times"
 ]
}