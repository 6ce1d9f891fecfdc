# regenerate MANIFEST from a dict file
import json
M=json.load(open('/verif/tools/manifest_src.json'))
claims=[dict(property=k,status=v[0],theorems=v[1],note=v[2]) for k,v in sorted(M.items())]
json.dump({"claims":claims},open('/verif/MANIFEST.json','w'),indent=1)
